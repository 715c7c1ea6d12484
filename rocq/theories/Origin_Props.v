(** Property C121: reading a text with or without the origin tokens gives the same elements. *)
From Coq Require Import String Ascii List Arith PeanoNat Bool Lia.
From Verif Require Import Base Element_Model Element_Spec Copy_Model Copy_Spec Copy_Props Origin_Model Origin_Spec.
Import ListNotations.
Local Open Scope list_scope.

Section Props.
Variable V : Type.
Variable veqb : V -> V -> bool.
Hypothesis veqb_eq : forall x y, veqb x y = true <-> x = y.
Variable base_of : nat -> base.
Variable default : nat -> nat -> str.
Variable init_head : nat -> V -> V.
Variable read_head : nat -> list token -> res V.
(** A head value that the constructor has converted (a Fraction) is not converted again. *)
Hypothesis init_once : forall c v, init_head c (init_head c v) = init_head c v.
Variable write_head : nat -> option V -> res str.
Variable write_tail : nat -> str.
Notation obj := (obj V). Notation Obj := (Obj V). Notation ask := (ask V).
Notation build := (build V base_of default init_head read_head).
Notation alike := (alike V). Notation asked := (asked V base_of init_head read_head). Notation source_of := (source_of V). Notation sound := (sound V base_of). Notation nowhere := (nowhere V). Notation every := (every V).
Notation cwo := (copy_with_origin V base_of default init_head).
Notation elem_of := (elem_of V base_of default write_head write_tail).

Lemma ask_ind' (P : ask -> Prop) : (forall c h t k, Forall P k -> P (Made V c h t k)) -> (forall c h k, Forall P k -> P (Direct V c h k)) ->
  (forall c a, P a -> P (Retyped V c a)) -> (forall a, P a -> P (Copied V a)) -> forall a, P a.
Proof.
  intros H1 H2 H3 H4. fix IH 1. intros [c h t k|c h k|c a|a].
  - apply H1. induction k as [|x k IHk]; constructor; [apply IH|exact IHk].
  - apply H2. induction k as [|x k IHk]; constructor; [apply IH|exact IHk].
  - apply H3, IH.
  - apply H4, IH.
Qed.
Definition build_all keep := fix all (l : list ask) : res (list obj) :=
    match l with [] => Ok [] | x :: r => let! o := build keep x in let! os := all r in Ok (o :: os) end.
Lemma build_made keep c h t k : build keep (Made V c h t k) = let! os := build_all keep k in factory V base_of default init_head read_head keep c h t os.
Proof. reflexivity. Qed.
Lemma build_direct keep c h k : build keep (Direct V c h k) = let! os := build_all keep k in Ok (Obj (construct V default init_head c h []) os).
Proof. reflexivity. Qed.

(** ** The same elements *)
Lemma alike_copy : forall o o', alike o o' -> alike (cwo o) (cwo o').
Proof.
  fix IH 3. intros o o' [i j k l C H S M F]. cbn [copy_with_origin].
  assert (G : Forall2 alike (map cwo k) (map cwo l)) by (induction F; cbn [map]; constructor; auto).
  unfold copy_origin_from. cbn [construct i_cls i_head i_space i_modified spacing_argument fold_left].
  repeat match goal with |- context [let '(_, _) := ?x in _] => destruct x as [[? ?] ?] end.
  constructor; cbn [i_cls i_head i_space i_modified]; rewrite ?C, ?H, ?M; try reflexivity. exact G.
Qed.
Lemma alike_retype c o o' : alike o o' -> alike (retype V base_of default init_head c o) (retype V base_of default init_head c o').
Proof.
  intros [i j k l C H S M F]. cbn [retype]. unfold copy_origin_from. cbn [construct i_cls i_head i_space i_modified fold_left].
  repeat match goal with |- context [let '(_, _) := ?x in _] => destruct x as [[? ?] ?] end.
  constructor; cbn [i_cls i_head i_space i_modified]; rewrite ?C, ?H, ?M; try reflexivity. exact F.
Qed.
Lemma same_all k : Forall (fun a => same_outcome alike (build true a) (build false a)) k -> same_outcome (Forall2 alike) (build_all true k) (build_all false k).
Proof.
  induction 1 as [|x k H _ IH]; [constructor|]. cbn [build_all].
  destruct (build true x) as [o|e], (build false x) as [o'|e']; cbn [same_outcome] in H; try contradiction; cbn [bindr]; [|exact H].
  destruct (build_all true k), (build_all false k); cbn [same_outcome] in IH; try contradiction; cbn [bindr same_outcome]; [constructor; assumption|exact IH].
Qed.

(** Reading the same text with and without the origin raises the same exception, or gives the same classes, heads, spacing and flags in the same places. *)
Theorem C121_same : forall a, same_outcome alike (build true a) (build false a).
Proof.
  apply ask_ind'.
  - intros c h t k IH. rewrite !build_made. pose proof (same_all k IH) as S.
    destruct (build_all true k) as [os|], (build_all false k) as [os'|]; cbn [same_outcome] in S; try contradiction; cbn [bindr]; [|exact S].
    unfold factory, with_origin, from_origin. destruct (base_of c); [reflexivity| | |]; try (destruct (read_head c h) as [v|e]; [|reflexivity]); cbn [bindr same_outcome];
      constructor; try reflexivity; exact S.
  - intros c h k IH. rewrite !build_direct. pose proof (same_all k IH) as S.
    destruct (build_all true k) as [os|], (build_all false k) as [os'|]; cbn [same_outcome] in S; try contradiction; cbn [bindr]; [|exact S].
    constructor; try reflexivity. exact S.
  - intros c a IH. cbn [Origin_Model.build]. destruct (build true a), (build false a); cbn [same_outcome] in IH; try contradiction; cbn [bindr same_outcome]; [|exact IH].
    apply alike_retype. exact IH.
  - intros a IH. cbn [Origin_Model.build]. destruct (build true a), (build false a); cbn [same_outcome] in IH; try contradiction; cbn [bindr same_outcome]; [|exact IH].
    apply alike_copy. exact IH.
Qed.
Lemma alike_equals : forall o o', alike o o' -> equals V veqb base_of o o' = true.
Proof.
  fix IH 3. intros o o' [i j k l C H S M F]. cbn [equals]. rewrite C, H, Nat.eqb_refl.
  assert (L : length k = length l) by (clear - F; induction F; cbn; congruence). rewrite L, Nat.eqb_refl. cbn [andb].
  assert (G : (fix all (k l : list obj) : bool := match k, l with a :: k, b :: l => equals V veqb base_of a b && all k l | _, _ => true end) k l = true).
  { clear L. induction F as [|x y k l R F IHF]; [reflexivity|]. rewrite (IH _ _ R), IHF. reflexivity. }
  rewrite G. destruct (has_modified base_of (i_cls V j)); [|reflexivity]. destruct (i_head V j) as [v|]; [|reflexivity]. rewrite (proj2 (veqb_eq v v) eq_refl). reflexivity.
Qed.
(** The trees are equal for equals(), and so are the single elements that read.lily() and the like return. *)
Theorem C121_equals : forall a, same_outcome (fun o o' => equals V veqb base_of o o' = true) (build true a) (build false a) /\
  same_outcome (option_related (fun o o' => equals V veqb base_of o o' = true)) (read_one V base_of default init_head read_head true a) (read_one V base_of default init_head read_head false a).
Proof.
  intros a. unfold read_one. pose proof (C121_same a) as S. destruct (build true a), (build false a); cbn [same_outcome] in S; try contradiction; cbn [bindr same_outcome].
  - split; [exact (alike_equals _ _ S)|]. destruct S as [i j k l _ _ _ _ F]. cbn [kids_of]. destruct F as [|x y k l R F]; cbn; [exact I|exact (alike_equals _ _ R)].
  - split; exact S.
Qed.

(** ** No origin *)
Lemma every_kids P o : every P o -> Forall (every P) (kids_of V o).
Proof. intros H. inversion H; subst. assumption. Qed.
Lemma nowhere_copy : forall o, every nowhere o -> every nowhere (cwo o).
Proof.
  refine (obj_ind' V _ _). intros i k IH A. destruct (every_inv V _ _ _ A) as [(N1 & N2 & N3) AK]. cbn [copy_with_origin]. constructor.
  - unfold copy_origin_from, Origin_Spec.nowhere. rewrite N1, N3. cbn. destruct (has_modified base_of (i_cls V i)); repeat split.
  - clear A. induction k as [|x k IHk]; [constructor|]. inversion IH; subst. inversion AK; subst. constructor; auto.
Qed.
Lemma build_all_forall keep (P : obj -> Prop) k : Forall (fun a => forall o, build keep a = Ok o -> P o) k -> forall os, build_all keep k = Ok os -> Forall P os.
Proof.
  induction 1 as [|x k H _ IH]; intros os E; cbn [build_all] in E; [injection E as <-; constructor|].
  destruct (build keep x) as [o|]; [|discriminate]. cbn [bindr] in E. destruct (build_all keep k) as [r|]; [|discriminate]. cbn [bindr] in E. injection E as <-. constructor; auto.
Qed.
(** Read without the origin, no element knows a position, and none is marked as changed. *)
Theorem C121_nowhere : forall a o, build false a = Ok o -> every nowhere o.
Proof.
  refine (ask_ind' _ _ _ _ _).
  - intros c h t k IH o. rewrite build_made. destruct (build_all false k) as [os|] eqn:E; [|discriminate]. cbn [bindr]. pose proof (build_all_forall _ _ _ IH _ E) as F.
    unfold factory, from_origin. destruct (base_of c); [discriminate| | |]; try (destruct (read_head c h) as [v|]; [|discriminate]); cbn [bindr]; intros X; injection X as <-;
      (constructor; [repeat split|exact F]).
  - intros c h k IH o. rewrite build_direct. destruct (build_all false k) as [os|] eqn:E; [|discriminate]. cbn [bindr]. pose proof (build_all_forall _ _ _ IH _ E) as F.
    intros X. injection X as <-. constructor; [repeat split|exact F].
  - intros c a IH o. cbn [Origin_Model.build]. destruct (build false a) as [[i k]|] eqn:E; [|discriminate]. cbn [bindr retype]. intros X. injection X as <-.
    destruct (every_inv V _ _ _ (IH _ eq_refl)) as [(N1 & N2 & N3) AK]. constructor; [|exact AK].
    unfold copy_origin_from, Origin_Spec.nowhere. rewrite N1, N3. cbn. destruct (has_modified base_of c); repeat split.
  - intros a IH o. cbn [Origin_Model.build]. destruct (build false a) as [o'|]; [|discriminate]. cbn [bindr]. intros X. injection X as <-. apply nowhere_copy. auto.
Qed.

(** ** With the origin *)
(** What every element that is read has: origins only where its class has them, and no flag. *)
Definition possible (i : inst V) : Prop := option_map (init_head (i_cls V i)) (i_head V i) = i_head V i /\
  i_modified V i = (false, false) /\ (base_of (i_cls V i) = BPlain -> i_head_origin V i = None) /\ (base_of (i_cls V i) <> BBlock -> i_tail_origin V i = None) /\
  (i_head_origin V i = None -> i_tail_origin V i = None).
Lemma origin_kept c i h : possible i -> (base_of c = base_of (i_cls V i)) ->
  let j := copy_origin_from V base_of (construct V default init_head c h []) i None in
  i_cls V j = c /\ i_head V j = option_map (init_head c) h /\ i_head_origin V j = i_head_origin V i /\ i_tail_origin V j = i_tail_origin V i /\ i_modified V j = (false, false).
Proof.
  intros (_ & P1 & P2 & P3 & P4) B. unfold copy_origin_from, has_head_origin, has_tail_origin, has_modified. cbn [construct i_cls i_head_origin i_tail_origin i_modified].
  rewrite B, P1. destruct (i_head_origin V i) as [ho|].
  - destruct (base_of (i_cls V i)) eqn:BE.
    + discriminate (P2 eq_refl).
    + rewrite P3 by discriminate. cbn. repeat split.
    + destruct (i_tail_origin V i) as [t|]; cbn; repeat split.
    + rewrite P3 by discriminate. cbn. repeat split.
  - rewrite P4 by reflexivity. cbn. destruct (base_of (i_cls V i)); repeat split.
Qed.
Lemma possible_copy : forall o, every possible o -> every possible (cwo o).
Proof.
  refine (obj_ind' V _ _). intros i k IH A. destruct (every_inv V _ _ _ A) as [P AK]. cbn [copy_with_origin]. constructor.
  - destruct (origin_kept (i_cls V i) i (i_head V i) P eq_refl) as (E1 & E0 & E2 & E3 & E4). unfold possible. unfold spacing_argument. rewrite E1, E0, E2, E3, E4. destruct P as (P0 & _ & P). split; [rewrite P0; exact P0|]. split; [reflexivity|exact P].
  - clear A. induction k as [|x k IHk]; [constructor|]. inversion IH; subst. inversion AK; subst. constructor; auto.
Qed.
Lemma source_copy : forall o, every possible o -> source_of (cwo o) = source_of o.
Proof.
  refine (obj_ind' V _ _). intros i k IH A. destruct (every_inv V _ _ _ A) as [P AK]. cbn [copy_with_origin Origin_Spec.source_of]. unfold spacing_argument.
  destruct (origin_kept (i_cls V i) i (i_head V i) P eq_refl) as (-> & -> & -> & -> & _). rewrite (proj1 P). f_equal. rewrite map_map. apply map_ext_in. intros x I. rewrite Forall_forall in *. auto.
Qed.
Lemma asked_cls a : match asked a with Source _ c _ _ _ _ => c end = cls_of_ask V a.
Proof. induction a; cbn [Origin_Spec.asked cls_of_ask]; try reflexivity; try assumption. destruct (asked a). reflexivity. Qed.
Lemma build_possible : forall a, sound a -> forall o, build true a = Ok o -> every possible o /\ source_of o = asked a.
Proof.
  assert (L : forall k, Forall (fun a => sound a -> forall o, build true a = Ok o -> every possible o /\ source_of o = asked a) k -> Forall sound k ->
     forall os, build_all true k = Ok os -> Forall (every possible) os /\ map source_of os = map asked k).
  { induction 1 as [|x k H _ IH]; intros S os E; cbn [build_all] in E; [injection E as <-; split; [constructor|reflexivity]|]. inversion S; subst.
    destruct (build true x) as [o|]; [|discriminate]. cbn [bindr] in E. destruct (build_all true k) as [r|]; [|discriminate]. cbn [bindr] in E. injection E as <-.
    destruct (H H2 o eq_refl) as [A1 A2]. destruct (IH H3 r eq_refl) as [B1 B2]. split; [constructor; assumption|]. cbn [map]. rewrite A2, B2. reflexivity. }
  refine (ask_ind' _ _ _ _ _).
  - intros c h t k IH S o. inversion S; subst. rewrite build_made. destruct (build_all true k) as [os|] eqn:E; [|discriminate]. cbn [bindr].
    destruct (L k IH H0 os E) as [F G]. cbn [Origin_Spec.asked]. unfold factory, with_origin, from_origin.
    destruct (base_of c) eqn:B; [discriminate| | |]; try (destruct (read_head c h) as [v|]; [|discriminate]); cbn [bindr]; intros X; injection X as <-;
      (split; [constructor; [|exact F]; unfold possible; cbn; rewrite ?init_once, B; repeat split; congruence|cbn [Origin_Spec.source_of]; rewrite G; reflexivity]).
  - intros c h k IH S o. inversion S; subst. rewrite build_direct. destruct (build_all true k) as [os|] eqn:E; [|discriminate]. cbn [bindr].
    destruct (L k IH H0 os E) as [F G]. intros X. injection X as <-. cbn [Origin_Spec.asked Origin_Spec.source_of]. rewrite G. split; [|reflexivity].
    constructor; [split; [destruct h; cbn; rewrite ?init_once; reflexivity|repeat split]|exact F].
  - intros c a IH S o. inversion S as [| |? ? SA BC BA|]; subst. cbn [Origin_Model.build]. destruct (build true a) as [[i k]|] eqn:E; [|discriminate]. cbn [bindr retype]. intros X. injection X as <-.
    destruct (IH SA _ eq_refl) as [AP AS]. destruct (every_inv V _ _ _ AP) as [P AK].
    assert (B : base_of c = base_of (i_cls V i)).
    { rewrite BC, <- BA, <- (asked_cls a), <- AS. reflexivity. }
    destruct (origin_kept c i (i_head V i) P B) as (E1 & E0 & E2 & E3 & E4). split.
    + constructor; [|exact AK]. unfold possible. rewrite E1, E0, E2, E3, E4, B. destruct P as (_ & _ & P). split; [destruct (i_head V i); cbn; rewrite ?init_once; reflexivity|]. split; [reflexivity|exact P].
    + cbn [Origin_Spec.asked]. rewrite <- AS. cbn [Origin_Spec.source_of]. rewrite E1, E0, E2, E3. reflexivity.
  - intros a IH S o. inversion S; subst. cbn [Origin_Model.build]. destruct (build true a) as [o'|]; [|discriminate]. cbn [bindr]. intros X. injection X as <-.
    destruct (IH H0 _ eq_refl) as [AP AS]. split; [exact (possible_copy _ AP)|]. rewrite (source_copy _ AP). exact AS.
Qed.
(** Read with the origin, every element has precisely the tokens that it was made from and the value that its class reads from them, and none is marked as changed. *)
Theorem C121_tokens : forall a o, sound a -> build true a = Ok o -> source_of o = asked a /\ every (fun i => i_modified V i = (false, false)) o.
Proof.
  intros a o S E. destruct (build_possible a S o E) as [P Q]. split; [exact Q|]. clear - P. revert o P. refine (obj_ind' V _ _). intros i k IH A.
  destruct (every_inv V _ _ _ A) as [(_ & P & _) AK]. constructor; [exact P|]. rewrite Forall_forall in *. auto.
Qed.

(** The functions that return one element return the first one of the document. *)
Theorem C121_first : forall keep c kids os, build keep (Direct V c None kids) = Ok os -> read_one V base_of default init_head read_head keep (Direct V c None kids) =
  match kids with [] => Ok None | a :: _ => let! o := build keep a in Ok (Some o) end.
Proof.
  intros keep c kids os. unfold read_one. rewrite build_direct. destruct kids as [|a r]; [reflexivity|]. cbn [build_all]. destruct (build keep a) as [o|]; [|discriminate]. cbn [bindr].
  destruct (build_all keep r); [|discriminate]. reflexivity.
Qed.

(** ** The text *)
Lemma elem_nowhere : forall o o', alike o o' -> every nowhere o' -> elem_of o' = unplaced_elem (elem_of o).
Proof.
  fix IH 3. intros o o' [i j k l C H S M F] N. destruct (every_inv V _ _ _ N) as [(N1 & N2 & N3) NK]. cbn [Copy_Model.elem_of unplaced_elem]. f_equal.
  - unfold attrs_of_inst, unplaced. cbn [a_kind a_id a_head a_tail a_before a_after_head a_between a_before_tail a_after]. rewrite N1, N2, N3, C, H, S. reflexivity.
  - rewrite map_map. clear N. induction F as [|x y k l R F IHF]; [reflexivity|]. inversion NK; subst. cbn [map]. rewrite (IH _ _ R) by assumption. rewrite IHF by assumption. reflexivity.
Qed.
Lemma tokens_real : forall a, with_tokens V a -> forall o, source_of o = asked a -> every (real_origin V) o.
Proof.
  refine (ask_ind' _ _ _ _ _).
  - intros c h t k IH W [i l] E. inversion W as [? ? ? ? NE FK| | |]; subst. cbn [Origin_Spec.source_of Origin_Spec.asked] in E. injection E as E1 E0 E2 E3 E4.
    constructor; [unfold real_origin; congruence|]. clear W. revert l E4. induction k as [|x k IHk]; intros [|y l] E; try discriminate; [constructor|].
    cbn [map] in E. injection E as E5 E6. inversion IH; subst. inversion FK; subst. constructor; auto.
  - intros c h k IH W [i l] E. inversion W as [|? ? ? FK| |]; subst. cbn [Origin_Spec.source_of Origin_Spec.asked] in E. injection E as E1 E0 E2 E3 E4.
    constructor; [unfold real_origin; congruence|]. clear W. revert l E4. induction k as [|x k IHk]; intros [|y l] E; try discriminate; [constructor|].
    cbn [map] in E. injection E as E5 E6. inversion IH; subst. inversion FK; subst. constructor; auto.
  - intros c a IH W [i l] E. inversion W; subst. cbn [Origin_Spec.source_of Origin_Spec.asked] in E. destruct (asked a) as [c' v' h' t' k'] eqn:A. injection E as E1 E0 E2 E3 E4.
    assert (X : every (real_origin V) (Obj (Inst V c' v' (i_space V i) h' t' (i_modified V i)) l)) by (apply IH; [assumption|]; cbn; rewrite E4; reflexivity).
    destruct (every_inv V _ _ _ X) as [R AK]. constructor; [|exact AK]. unfold real_origin in *. cbn in R. congruence.
  - intros a IH W o E. inversion W; subst. apply IH; assumption.
Qed.
(** Missing for the full claim: elements that are made from no token (the finding below), and the numbers after commands that want an integer (C105_origin_finding). *)
(** With and without the origin the same text is written, if every element was made from at least one token; without, the points to write at have no positions. *)
Theorem C121_text_partial : forall concat_space a o o', unplaced_space concat_space -> sound a -> with_tokens V a -> build true a = Ok o -> build false a = Ok o' ->
  write concat_space (elem_of o) = write concat_space (elem_of o') /\
  exists ps, points concat_space (elem_of o') = Ok ps /\ Forall (fun p => p_span p = None /\ p_modified p = false) ps.
Proof.
  intros cs a o o' U S W E E'. pose proof (C121_same a) as AL. rewrite E, E' in AL. cbn [same_outcome] in AL.
  pose proof (C121_nowhere a o' E') as N. pose proof (tokens_real a W o (proj1 (C121_tokens a o S E))) as R.
  pose proof (elem_origins V base_of default write_head write_tail o R) as HO.
  rewrite (elem_nowhere o o' AL N). split; [symmetry; apply write_unplaced; assumption|].
  destruct (points_unplaced cs U _ HO) as (ps & _ & P2). eexists. split; [exact P2|]. clear. induction ps; constructor; [split; reflexivity|assumption].
Qed.
(** An element that is made from tokens has the positions of the first and the last one: that of its head, and that of its tail if it is a block. *)
Theorem C121_positions : forall c t h tail kids o, build true (Made V c (t :: h) tail kids) = Ok o -> exists a k, elem_of o = E a k /\
  (exists p, head_point a k = Ok (Some p) /\ p_span p = Some (t_pos t, t_end (last (t :: h) t)) /\ p_modified p = false) /\
  (forall u us, base_of c = BBlock -> tail = u :: us -> exists p, tail_point a = Some p /\ p_span p = Some (t_pos u, t_end (last tail u)) /\ p_modified p = false) /\
  (base_of c = BBlock -> tail = [] -> exists p, tail_point a = Some p /\ p_span p = None).
Proof.
  intros c t h tail kids o. rewrite build_made. destruct (build_all true kids) as [os|]; [|discriminate]. cbn [bindr]. unfold factory, with_origin, from_origin.
  assert (G : forall i, i_cls V i = c -> base_of c <> BPlain -> i_modified V i = (false, false) -> i_head_origin V i = Some (t :: h) ->
    i_tail_origin V i = (match base_of c with BBlock => Some tail | _ => None end) -> o = Obj i os ->
    exists a k, elem_of o = E a k /\
    (exists p, head_point a k = Ok (Some p) /\ p_span p = Some (t_pos t, t_end (last (t :: h) t)) /\ p_modified p = false) /\
    (forall u us, base_of c = BBlock -> tail = u :: us -> exists p, tail_point a = Some p /\ p_span p = Some (t_pos u, t_end (last tail u)) /\ p_modified p = false) /\
    (base_of c = BBlock -> tail = [] -> exists p, tail_point a = Some p /\ p_span p = None)).
  { intros i C NP M HO TO ->. cbn [Copy_Model.elem_of]. eexists. eexists. split; [reflexivity|].
    unfold head_point, tail_point, attrs_of_inst, Copy_Model.kind_of. cbn [a_kind a_head_origin a_tail_origin a_head_modified a_tail_modified]. rewrite C, HO, TO, M.
    split; [|split].
    - destruct (base_of c); [contradiction| | |]; eexists; repeat split.
    - intros u us B ->. rewrite B. eexists. repeat split.
    - intros B ->. rewrite B. eexists. repeat split. }
  destruct (base_of c) eqn:B; [discriminate| | |]; try (destruct (read_head c (t :: h)) as [v|]; [|discriminate]); cbn [bindr]; intros X; injection X as <-;
    (eapply G; [| | | | |reflexivity]; first [reflexivity|discriminate]).
Qed.
(** Finding: an element that is made from no token (the option that is not closed in LaTeX, C100_bracket_finding) can be written when it was read without
    the origin; read with the origin, writing it, or anything with it, fails. *)
Theorem C121_empty_finding : forall concat_space c tail kids o, build true (Made V c [] tail kids) = Ok o -> write concat_space (elem_of o) = Err IndexError.
Proof.
  intros cs c tail kids o. rewrite build_made. destruct (build_all true kids) as [os|]; [|discriminate]. cbn [bindr]. unfold factory, with_origin, from_origin.
  assert (G : forall i, i_cls V i = c -> base_of c <> BPlain -> i_head_origin V i = Some [] -> o = Obj i os -> write cs (elem_of o) = Err IndexError).
  { intros i C NP HO ->. unfold write. cbn [Copy_Model.elem_of points]. unfold head_point at 1, attrs_of_inst at 1, Copy_Model.kind_of.
    cbn [a_kind]. rewrite C. cbn [attrs_of_inst a_head_origin]. rewrite HO. destruct (base_of c); [contradiction| | |]; reflexivity. }
  destruct (base_of c) eqn:B; [discriminate| | |]; try (destruct (read_head c []) as [v|]; [|discriminate]); cbn [bindr]; intros X; injection X as <-;
    (eapply G; [| | |reflexivity]; first [reflexivity|discriminate]).
Qed.
End Props.
Print Assumptions C121_same. Print Assumptions C121_equals. Print Assumptions C121_nowhere. Print Assumptions C121_tokens. Print Assumptions C121_first. Print Assumptions C121_text_partial.
Print Assumptions C121_positions. Print Assumptions C121_empty_finding.

(** [{ d e }] with a note that becomes a pitch, a document around it, and the text of an option that is not closed. *)
Definition w_read (c : nat) (ts : list token) : res str :=
  match ts with [Tok 2 3] => Ok (txt "d") | [Tok 4 5] => Ok (txt "e") | _ => Err ValueError end.
Definition w_ask : ask str := Direct str 0 None [Made str 1 [Tok 0 1] [Tok 6 7] [Made str 2 [Tok 2 3] [] []; Retyped str 3 (Copied str (Made str 2 [Tok 4 5] [] []))]].
Definition w_unclosed : ask str := Made str 1 [] [] [Made str 2 [Tok 2 3] [] []].
Definition w_written (keep : bool) (a : ask str) : res str :=
  let! o := build str w_base w_default w_init w_read keep a in write concat_default (elem_of str w_base w_default w_head w_tail o).
Example C121_witness : (forall c v, w_init c (w_init c v) = w_init c v) /\ sound str w_base w_ask /\ with_tokens str w_ask /\ unplaced_space concat_default /\
  w_written true w_ask = Ok (txt "{ d e }") /\ w_written false w_ask = Ok (txt "{ d e }") /\
  build str w_base w_default w_init w_read true w_ask =
    Ok (Obj str (Inst str 0 None None None None (false, false))
         [Obj str (Inst str 1 None None (Some [Tok 0 1]) (Some [Tok 6 7]) (false, false))
            [Obj str (Inst str 2 (Some (txt "d")) None (Some [Tok 2 3]) None (false, false)) [];
             Obj str (Inst str 3 (Some (txt "e")) None (Some [Tok 4 5]) None (false, false)) []]]) /\
  build str w_base w_default w_init w_read true (Made str 2 [Tok 9 10] [] []) = Err ValueError /\
  w_written true w_unclosed = Err IndexError /\ w_written false w_unclosed = Ok (txt "{ d }").
Proof.
  repeat split; try (repeat constructor; discriminate).
Qed.
