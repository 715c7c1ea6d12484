(** Property C95, continued: the Python expression that py_dump() prints can be read in one way only. *)
From Coq Require Import String Ascii List Arith Bool Lia.
From Verif Require Import Base Element_Model Copy_Model Copy_Spec Copy_Props.
Import ListNotations.

(** ** Specification *)
(** The characters of names in Python. *)
Definition name_char (c : ascii) : Prop :=
  let n := nat_of_ascii c in 48 <= n <= 57 \/ 65 <= n <= 90 \/ n = 95 \/ 97 <= n <= 122.
Definition name (s : str) : Prop := Forall name_char s.
(** What can follow an argument of a call. *)
Definition follows (r : str) : Prop := exists t, r = ")"%char :: t \/ r = ","%char :: t.

Section Python.
Variable V : Type.
Variable base_of : nat -> base.
Variable module class_name : nat -> str.
Variable repr : V -> str.
Notation expression := (expression V base_of module class_name repr).
Notation call_arguments := (call_arguments V base_of module class_name repr).
Notation children := (children V base_of module class_name repr).
Notation obj := (obj V).
Notation inst := (inst V).

(** Different classes have different names; and two head values whose repr() can not be told apart where an argument ends are the same value. *)
Definition names_ok : Prop :=
  (forall c, name (module c) /\ name (class_name c)) /\
  forall c d, module c = module d -> class_name c = class_name d -> c = d.
Definition repr_ok : Prop := forall h h' r r', follows r -> follows r' -> repr h ++ r = repr h' ++ r' -> h = h'.
(** Only text elements have a head value. *)
Definition heads_ok (i : inst) : Prop := base_of (i_cls V i) <> BText -> i_head V i = None.

(** ** Proofs *)
Hypothesis NAMES : names_ok.
Hypothesis REPR : repr_ok.

Definition solid (c : ascii) : Prop := c <> " "%char /\ c <> newline /\ c <> ")"%char.
Definition starts (x : str) : Prop := exists c t, x = c :: t /\ solid c.

Lemma name_char_not c : ~ (48 <= nat_of_ascii c <= 57 \/ 65 <= nat_of_ascii c <= 90 \/ nat_of_ascii c = 95 \/ 97 <= nat_of_ascii c <= 122) -> forall s, name s -> ~ In c s.
Proof. intros H s N I. apply Forall_forall with (1 := N) in I. exact (H I). Qed.
Lemma name_solid c : name_char c -> solid c.
Proof. intros H. repeat split; intros ->; unfold name_char in H; cbn in H; lia. Qed.
Lemma starts_name s x : name s -> starts (s ++ "."%char :: x).
Proof.
  intros N. destruct s as [|c s]; cbn [app].
  - exists "."%char, x. split; [reflexivity|]. repeat split; discriminate.
  - exists c, (s ++ "."%char :: x). split; [reflexivity|]. apply name_solid. now inversion N.
Qed.

Lemma strip w : forall w' x x', blank w -> blank w' -> starts x -> starts x' -> w ++ x = w' ++ x' -> x = x'.
Proof.
  induction w as [|c w IH]; intros w' x x' B B' S S' E.
  - destruct w' as [|c' w']; [exact E|]. cbn [app] in E. destruct S as (d & t & -> & D1 & D2 & _). injection E as -> _. inversion B' as [|? ? [C|C] _]; subst; congruence.
  - inversion B as [|? ? Bc Bw]; subst. destruct w' as [|c' w'].
    + cbn [app] in E. destruct S' as (d & t & -> & D1 & D2 & _). injection E as -> _. destruct Bc as [C|C]; subst; congruence.
    + cbn [app] in E. injection E as -> E. inversion B'; subst. eapply IH; eassumption.
Qed.
Lemma split_at (c : ascii) (a : str) : forall b x y : str, ~ In c a -> ~ In c b -> a ++ c :: x = b ++ c :: y -> a = b /\ x = y.
Proof.
  induction a as [|d a IH]; intros [|e b] x y A B E; cbn [app] in E.
  - injection E as ->. auto.
  - injection E as -> _. elim B. now left.
  - injection E as -> _. elim A. now left.
  - injection E as -> E. destruct (IH b x y) as [-> ->]; [intros X; apply A; now right|intros X; apply B; now right|exact E|auto].
Qed.

Scheme expression_mut := Induction for Copy_Spec.expression Sort Prop
with arguments_mut := Induction for Copy_Spec.call_arguments Sort Prop
with children_mut := Induction for Copy_Spec.children Sort Prop.

Lemma expression_starts s o r : expression s o -> exists w x, s ++ r = w ++ x /\ blank w /\ starts x.
Proof.
  intros X. destruct X as [w i args kids B _]. exists w. eexists. rewrite <- app_assoc. split; [reflexivity|]. split; [exact B|].
  rewrite <- app_assoc. cbn [txt list_ascii_of_string app]. apply starts_name. apply NAMES.
Qed.
Lemma children_starts s l r : children s l -> exists w x, s ++ r = w ++ x /\ blank w /\ starts x.
Proof.
  intros X. destruct X as [w s o B X|w s o t kids B X _].
  - destruct (expression_starts s o r X) as (w' & x & E & B' & S). exists (w ++ w'), x. rewrite <- app_assoc, E, app_assoc. split; [reflexivity|]. split; [now apply Forall_app|exact S].
  - destruct (expression_starts s o (txt "," ++ t ++ r) X) as (w' & x & E & B' & S). exists (w ++ w'), x. rewrite <- !app_assoc, E. split; [reflexivity|]. split; [now apply Forall_app|exact S].
Qed.
Lemma children_no_end s l r r' : children s l -> s ++ r <> ")"%char :: r'.
Proof.
  intros X E. destruct (children_starts s l r X) as (w & x & F & B & (c & t & -> & D1 & D2 & D3)). rewrite E in F.
  destruct w as [|d w]; cbn [app] in F; injection F as <- _; [congruence|]. inversion B as [|? ? [C|C] _]; discriminate.
Qed.

Notation heads_all := (every V heads_ok).
Definition one_expression s o := forall w w' s' o' r r', blank w -> blank w' -> expression s' o' -> heads_all o -> heads_all o' ->
  w ++ s ++ r = w' ++ s' ++ r' -> same_tree V o o' /\ r = r'.
Definition one_arguments i args kids := forall i' args' kids' r r', i_cls V i = i_cls V i' -> call_arguments i' args' kids' ->
  Forall heads_all kids -> Forall heads_all kids' -> args ++ ")"%char :: r = args' ++ ")"%char :: r' ->
  (base_of (i_cls V i) = BText -> i_head V i = i_head V i') /\ Forall2 (same_tree V) kids kids' /\ r = r'.
Definition one_children s l := forall s' l' r r', children s' l' -> Forall heads_all l -> Forall heads_all l' ->
  s ++ ")"%char :: r = s' ++ ")"%char :: r' -> Forall2 (same_tree V) l l' /\ r = r'.

Lemma one_way s o : expression s o -> one_expression s o.
Proof.
  apply (expression_mut V base_of module class_name repr (fun s o _ => one_expression s o) (fun i a k _ => one_arguments i a k) (fun s l _ => one_children s l)); clear s o.
  - intros u i args kids B _ IH w w' s' o' r r' Bw Bw' X HO HO' E. destruct X as [u' i' args' kids' B' A'].
    assert (E1 : module (i_cls V i) ++ "."%char :: class_name (i_cls V i) ++ "("%char :: args ++ ")"%char :: r = module (i_cls V i') ++ "."%char :: class_name (i_cls V i') ++ "("%char :: args' ++ ")"%char :: r').
    { apply (strip (w ++ u) (w' ++ u')); [now apply Forall_app|now apply Forall_app|apply starts_name; apply NAMES|apply starts_name; apply NAMES|].
      rewrite <- !app_assoc. rewrite <- !app_assoc in E. cbn [txt list_ascii_of_string app] in E. rewrite <- ?app_assoc in E. cbn [app] in E. exact E. }
    apply split_at in E1 as [M E1]; [|apply name_char_not; [cbn; lia|apply NAMES]..].
    apply split_at in E1 as [C E1]; [|apply name_char_not; [cbn; lia|apply NAMES]..].
    assert (CC := proj2 NAMES _ _ M C). inversion HO as [? ? HI HK]; subst. inversion HO' as [? ? HI' HK']; subst.
    destruct (IH i' args' kids' r r' CC A' HK HK' E1) as (H1 & H2 & H3). split; [|exact H3].
    constructor; [exact CC| |exact H2]. destruct (base_of (i_cls V i)) eqn:BB; try (now apply H1);
      rewrite HI by congruence; rewrite HI' by congruence; reflexivity.
  - intros i h BT H i' args' kids' r r' CC A' _ _ E. destruct A' as [i' h' BT' H'|i' h' s' kids' BT' H' X'|i' BT'|i' s' kids' BT' X'].
    + assert (h = h') by (eapply REPR; [| |exact E]; eexists; left; reflexivity). subst h'. apply app_inv_head in E. injection E as ->. rewrite H, H'. auto.
    + exfalso. cbn [txt list_ascii_of_string app] in E. rewrite <- app_assoc in E. cbn [app] in E.
      assert (h = h') by (eapply REPR; [| |exact E]; eexists; [left|right]; reflexivity). subst h'. apply app_inv_head in E. discriminate.
    + congruence.
    + congruence.
  - intros i h s kids BT H _ IH i' args' kids' r r' CC A' HK HK' E. cbn [txt list_ascii_of_string app] in E. rewrite <- app_assoc in E. cbn [app] in E.
    destruct A' as [i' h' BT' H'|i' h' s' kids' BT' H' X'|i' BT'|i' s' kids' BT' X'].
    + exfalso. assert (h = h') by (eapply REPR; [| |exact E]; eexists; [right|left]; reflexivity). subst h'. apply app_inv_head in E. discriminate.
    + cbn [txt list_ascii_of_string app] in E. rewrite <- app_assoc in E. cbn [app] in E.
      assert (h = h') by (eapply REPR; [| |exact E]; eexists; right; reflexivity). subst h'. apply app_inv_head in E. injection E as E.
      destruct (IH s' kids' r r' X' HK HK' E) as (H1 & H2). rewrite H, H'. auto.
    + congruence.
    + congruence.
  - intros i BT i' args' kids' r r' CC A' _ _ E. destruct A' as [i' h' BT' H'|i' h' s' kids' BT' H' X'|i' BT'|i' s' kids' BT' X']; try congruence.
    + cbn [app] in E. injection E as ->. split; [congruence|]. auto.
    + cbn [app] in E. symmetry in E. now apply (children_no_end _ _ _ _ X') in E.
  - intros i s kids BT X IH i' args' kids' r r' CC A' HK HK' E. destruct A' as [i' h' BT' H'|i' h' s' kids' BT' H' X'|i' BT'|i' s' kids' BT' X']; try congruence.
    + cbn [app] in E. now apply (children_no_end _ _ _ _ X) in E.
    + split; [congruence|]. eapply IH; eassumption.
  - intros w s o B X IH s' l' r r' X' HL HL' E. inversion HL as [|? ? HO _]; subst. destruct X' as [w' s' o' B' X'|w' s' o' t' kids' B' X' Y'].
    + rewrite <- !app_assoc in E. inversion HL' as [|? ? HO' _]; subst. destruct (IH w w' s' o' _ _ B B' X' HO HO' E) as (H1 & H2). injection H2 as ->. auto.
    + exfalso. rewrite <- !app_assoc in E. inversion HL' as [|? ? HO' _]; subst. destruct (IH w w' s' o' _ _ B B' X' HO HO' E) as (H1 & H2). discriminate.
  - intros w s o t kids B X IH Y IHY s' l' r r' X' HL HL' E. inversion HL as [|? ? HO HK]; subst. destruct X' as [w' s' o' B' X'|w' s' o' t' kids' B' X' Y'].
    + exfalso. rewrite <- !app_assoc in E. inversion HL' as [|? ? HO' _]; subst. destruct (IH w w' s' o' _ _ B B' X' HO HO' E) as (H1 & H2). discriminate.
    + rewrite <- !app_assoc in E. inversion HL' as [|? ? HO' HK']; subst. destruct (IH w w' s' o' _ _ B B' X' HO HO' E) as (H1 & H2).
      cbn [txt list_ascii_of_string app] in H2. injection H2 as H2. destruct (IHY t' kids' r r' Y' HK HK' H2) as (H3 & H4). auto.
Qed.
End Python.

(** ** Theorems *)

(** A text is the Python expression of one tree at most: the same classes and head values in the same places. *)
Theorem C95_one_way : forall V base_of module class_name repr s o o',
  names_ok module class_name -> repr_ok V repr -> every V (heads_ok V base_of) o -> every V (heads_ok V base_of) o' ->
  expression V base_of module class_name repr s o -> expression V base_of module class_name repr s o' -> same_tree V o o'.
Proof.
  intros V base_of module class_name repr s o o' N R H H' X X'.
  apply (one_way V base_of module class_name repr N R s o X [] [] s o' [] []); try assumption; try constructor. 
Qed.
Print Assumptions C95_one_way.

Lemma proper_heads V base_of init_head o : every V (proper V base_of init_head) o -> every V (heads_ok V base_of) o.
Proof.
  revert o. fix F 2. intros o [i k P K]. constructor.
  - unfold heads_ok. unfold proper in P. destruct (base_of (i_cls V i)); try (intros _; apply P). congruence.
  - clear P. induction K as [|x r X _ IH]; constructor; [apply F; exact X|exact IH].
Qed.

(** Trees that differ in a class or a head value have different dumps, whatever the indent widths. *)
Theorem C95_injective : forall V base_of init_head module class_name repr o o',
  names_ok module class_name -> repr_ok V repr -> every V (proper V base_of init_head) o -> every V (proper V base_of init_head) o' ->
  exists f0, forall fuel fuel' w w' more, f0 <= fuel -> f0 <= fuel' ->
    py_dump V base_of module class_name repr fuel w more o = py_dump V base_of module class_name repr fuel' w' more o' -> same_tree V o o'.
Proof.
  intros V base_of init_head module class_name repr o o' N R P P'.
  destruct (C95_dump V base_of init_head module class_name repr o P) as (f1 & D1). destruct (C95_dump V base_of init_head module class_name repr o' P') as (f2 & D2).
  exists (f1 + f2). intros fuel fuel' w w' more L L' E.
  destruct (D1 fuel ltac:(lia) w more) as (s1 & E1 & X1). destruct (D2 fuel' ltac:(lia) w' more) as (s2 & E2 & X2).
  rewrite E1, E2 in E. injection E as E. apply app_inv_tail in E. subst s2.
  apply (C95_one_way V base_of module class_name repr s1); auto; eapply proper_heads; eassumption.
Qed.
Print Assumptions C95_injective.

(** ** The hypotheses are met *)

(** Strings in quotes, with a backslash before quotes and backslashes, as Python's repr() writes them. *)
Definition escape (c : ascii) : str := if Ascii.eqb c "'" || Ascii.eqb c "\" then ["\"%char; c] else [c].
Definition quoted (h : str) : str := "'"%char :: flat_map escape h ++ ["'"%char].
Lemma quoted_ok : repr_ok str quoted.
Proof.
  intros h h' r r' _ _ E. unfold quoted in E. cbn [app] in E. injection E as E. rewrite <- !app_assoc in E. cbn [app] in E. revert h' E.
  induction h as [|c h IH]; intros [|c' h'] E; cbn [flat_map app] in E.
  - reflexivity.
  - exfalso. unfold escape in E. destruct (Ascii.eqb_spec c' "'"), (Ascii.eqb_spec c' "\"); cbn [orb app] in E; injection E as E _; congruence.
  - exfalso. unfold escape in E. destruct (Ascii.eqb_spec c "'"), (Ascii.eqb_spec c "\"); cbn [orb app] in E; injection E as E _; congruence.
  - rewrite <- !app_assoc in E.
    assert (X : c = c' /\ flat_map escape h ++ "'"%char :: r = flat_map escape h' ++ "'"%char :: r').
    { unfold escape in E at 1. destruct (Ascii.eqb c "'" || Ascii.eqb c "\") eqn:A; unfold escape in E at 2; destruct (Ascii.eqb c' "'" || Ascii.eqb c' "\") eqn:B; cbn [app] in E.
      - injection E as -> E. auto.
      - injection E as <- _. discriminate B.
      - injection E as -> _. discriminate A.
      - injection E as -> E. auto. }
    destruct X as [-> X]. f_equal. apply IH. exact X.
Qed.

Example C95_one_way_witness :
  names_ok (fun _ => txt "lily") (fun c => repeat "T"%char (S c)) /\ repr_ok str quoted /\ every str (proper str w_base w_init) w_tree /\
  py_dump str w_base (fun _ => txt "lily") (fun c => repeat "T"%char (S c)) quoted 20 0 false w_tree =
    Ok (txt "lily.T(" ++ [newline] ++ txt "lily.TT(" ++ [newline] ++ txt "lily.TTT('d')," ++ [newline] ++ txt "lily.TTT('e')))") /\
  quoted (txt "a'), lily.T('b") = txt "'a\'), lily.T(\'b'".
Proof.
  split; [|split; [apply quoted_ok|split; [apply C42_element_witness|split; reflexivity]]]. split.
  - intros c. split; [repeat constructor; unfold name_char; cbn; lia|]. apply Forall_forall. intros x I. apply repeat_spec in I. subst x. unfold name_char; cbn; lia.
  - intros c d _ E. apply (f_equal (@List.length ascii)) in E. rewrite !repeat_length in E. lia.
Qed.
