(** Property C144: what is written of an extracted range. *)
From Coq Require Import String List ZArith Bool PeanoNat Lia.
From Verif Require Import Base Node_Model Node_Spec Node_Nav Range_Model Range_Spec Range_Proofs Range_Machine Range_Extract Range_Props.
From Verif Require Element_Model Element_Spec Element_Proofs Element_Props.
Import ListNotations.
Notation attrs := Element_Model.attrs.

(** ** Specification *)

(** The elements of a tree: every node has the attributes of its element. *)
Fixpoint elements (attr : nat -> attrs) (t : tree) : Element_Model.elem :=
  match t with T n ts => Element_Model.E (attr n) (map (elements attr) ts) end.

(** The texts of a tree in document order (the head, the children, the tail), each with the path of its node. *)
Definition head_texts (a : attrs) : list (res str) := match Element_Model.a_kind a with Element_Model.Plain => [] | _ => [Element_Model.a_head a] end.
Definition tail_texts (a : attrs) : list (res str) := match Element_Model.a_kind a with Element_Model.Block => [Ok (Element_Model.a_tail a)] | _ => [] end.
Fixpoint located (attr : nat -> attrs) (t : tree) : list (list nat * res str) :=
  match t with T n ts =>
    map (fun x => ([], x)) (head_texts (attr n))
    ++ (fix go (i : nat) (l : list tree) : list (list nat * res str) :=
          match l with [] => [] | c :: r => map (fun px => (i :: fst px, snd px)) (located attr c) ++ go (S i) r end) 0 ts
    ++ map (fun x => ([], x)) (tail_texts (attr n))
  end.

(** [r] are the entries of a list whose paths have the property, in the same order. *)
Inductive chosen {A} (P : list nat -> Prop) : list (list nat * A) -> list A -> Prop :=
| chosen_nil : chosen P [] []
| chosen_keep p x l r : P p -> chosen P l r -> chosen P ((p, x) :: l) (x :: r)
| chosen_skip p x l r : ~ P p -> chosen P l r -> chosen P ((p, x) :: l) r.

(** The copies of the elements write the same head and tail; spacing and origin can be different. *)
Definition same_texts (attr copy : nat -> attrs) : Prop := forall n,
  Element_Model.a_kind (copy n) = Element_Model.a_kind (attr n) /\ Element_Model.a_head (copy n) = Element_Model.a_head (attr n) /\
  Element_Model.a_tail (copy n) = Element_Model.a_tail (attr n).

(** ** Proofs *)

Section Chosen.
Context {A : Type}.
Lemma chosen_app (P : list nat -> Prop) (a b : list (list nat * A)) r s : chosen P a r -> chosen P b s -> chosen P (a ++ b) (r ++ s).
Proof. induction 1; intros H2; cbn [app]; [exact H2|constructor; auto|apply chosen_skip; auto]. Qed.
Lemma chosen_none (P : list nat -> Prop) (a : list (list nat * A)) : (forall p, In p (map fst a) -> ~ P p) -> chosen P a [].
Proof. induction a as [|[p x] a IH]; intros H; [constructor|]. apply chosen_skip; [apply H; now left|apply IH; intros q I; apply H; now right]. Qed.
Lemma chosen_here (P : list nat -> Prop) (l : list A) : P [] -> chosen P (map (fun x => ([], x)) l) l.
Proof. intros H. induction l; cbn [map]; constructor; auto. Qed.
Lemma chosen_below (P Q : list nat -> Prop) i (l : list (list nat * A)) r : (forall p, P (i :: p) <-> Q p) -> chosen Q l r -> chosen P (map (fun px => (i :: fst px, snd px)) l) r.
Proof. intros H. induction 1; cbn [map fst snd]; [constructor|constructor; [now apply H|auto]|apply chosen_skip; [now rewrite H|auto]]. Qed.
End Chosen.

Lemma texts_elements attr n ts : Element_Spec.texts (elements attr (T n ts)) = head_texts (attr n) ++ flat_map (fun c => Element_Spec.texts (elements attr c)) ts ++ tail_texts (attr n).
Proof.
  cbn [elements Element_Spec.texts]. unfold head_texts, tail_texts, Element_Spec.has_head, Element_Spec.has_tail. f_equal; [destruct (Element_Model.a_kind (attr n)); reflexivity|].
  f_equal; [|destruct (Element_Model.a_kind (attr n)); reflexivity]. induction ts as [|c r IH]; [reflexivity|]. cbn [map flat_map]. now rewrite IH.
Qed.

Lemma restrict_texts attr copy : same_texts attr copy -> forall t s e, chosen (reached s e) (located attr t) (Element_Spec.texts (elements copy (restrict s e t))).
Proof.
  intros ST. induction t as [n ts IH] using tree_ind2. intros s e. cbn [restrict]. rewrite texts_elements. cbn [located].
  destruct (ST n) as (K & H & TL). unfold head_texts, tail_texts. rewrite K, H, TL.
  apply chosen_app; [apply chosen_here, reached_nil|]. apply chosen_app; [|apply chosen_here, reached_nil].
  assert (G : forall l k, Forall (fun t => forall s e, chosen (reached s e) (located attr t) (Element_Spec.texts (elements copy (restrict s e t)))) l -> k + List.length l = List.length ts ->
    chosen (reached s e)
      ((fix go (i : nat) (l : list tree) : list (list nat * res str) := match l with [] => [] | c :: r => map (fun px => (i :: fst px, snd px)) (located attr c) ++ go (S i) r end) k l)
      (flat_map (fun c => Element_Spec.texts (elements copy c))
        ((fix go (i : nat) (l : list tree) : list tree := match l with [] => [] | c :: r => if within s e (List.length ts) i then restrict (inner s i) (inner e i) c :: go (S i) r else go (S i) r end) k l))).
  { induction l as [|c r IHl]; intros k F L; [constructor|]. inversion F as [|? ? FC FR]; subst. cbn [List.length] in L. assert (KL : k < List.length ts) by lia.
    specialize (IHl (S k) FR ltac:(lia)). destruct (within s e (List.length ts) k) eqn:W.
    - cbn [flat_map]. apply chosen_app; [|exact IHl]. apply (chosen_below _ (reached (inner s k) (inner e k))); [|apply FC].
      intros p. rewrite (reached_cons s e k p _ KL). unfold within in W. apply andb_prop in W as [W1 W2]. apply Nat.leb_le in W1. apply Z.leb_le in W2. tauto.
    - change (flat_map (fun c => Element_Spec.texts (elements copy c)) ?x) with ([] ++ flat_map (fun c => Element_Spec.texts (elements copy c)) x).
      match goal with |- chosen _ _ ?z => change z with ([] ++ z) end. apply chosen_app; [|exact IHl]. apply chosen_none. intros p I R. rewrite map_map in I. cbn [fst] in I. apply in_map_iff in I as ((q & x) & <- & _).
      cbn [fst] in R. apply (reached_cons s e k q _ KL) in R as (R1 & R2 & _). unfold within in W. apply andb_false_iff in W as [W|W]; [apply Nat.leb_gt in W; lia|apply Z.leb_gt in W; lia]. }
  apply (G ts 0); [exact IH|reflexivity].
Qed.

(** The tree that extract_tree() gives for any range has exactly the texts of the nodes of the range (and of the nodes above its
    start), in document order. *)
Theorem C144_texts : forall attr copy t s e, same_texts attr copy -> valid t s -> valid t e ->
  exists f0 r t' ts, new_range t s e = Ok r /\ (forall fuel, f0 <= fuel -> extract_tree fuel r = Ok t') /\
    Element_Spec.texts (elements copy t') = ts /\ chosen (reached s e) (located attr t) ts.
Proof.
  intros attr copy t s e ST VS VE. destruct (fresh_range t s e VS VE) as (L & E & G & N & IX). destruct (extract_from t s e VS VE) as (f0 & F). exists f0, (Range s e L []), (restrict s e t), (Element_Spec.texts (elements copy (restrict s e t))).
  split; [exact E|]. split; [|split; [reflexivity|now apply restrict_texts]].
  intros fuel LF. unfold extract_tree, from_here. cbn [r_top]. rewrite IX. replace (-1 <? -1)%Z with false by reflexivity. cbn [bindr]. destruct (level_trails L s e G) as [T1 T2]. rewrite T1, T2, N. apply F, LF.
Qed.
Print Assumptions C144_texts.

(** New copies: without origin, and with only whitespace as spacing. *)
Definition new_copy (a : attrs) : Prop := Element_Model.a_head_origin a = None /\
  Forall Element_Spec.blank [Element_Model.a_before a; Element_Model.a_after_head a; Element_Model.a_between a; Element_Model.a_before_tail a; Element_Model.a_after a].

Lemma chosen_unique {A} P (l : list (list nat * A)) r r' : chosen P l r -> chosen P l r' -> r = r'.
Proof. intros H. revert r'. induction H; intros r' K; inversion K; subst; try contradiction; f_equal; auto. Qed.
Lemma blank_layout cs copy : (forall n, new_copy (copy n)) -> (forall a x y, Element_Spec.blank (cs a x y)) ->
  forall t w, In (Element_Spec.Req w) (Element_Spec.layout cs (elements copy t)) -> Element_Spec.blank w.
Proof.
  intros N C. induction t as [n ts IH] using tree_ind2. intros w I. cbn [elements] in I. rewrite Element_Proofs.layout_eq in I. destruct (N n) as [_ B].
  inversion B as [|? ? B1 B']; subst. inversion B' as [|? ? B2 B'']; subst. inversion B'' as [|? ? B3 B3']; subst. inversion B3' as [|? ? B4 B4']; subst. inversion B4' as [|? ? B5 _]; subst.
  rewrite !in_app_iff in I. destruct I as [I|[I|I]].
  - destruct (Element_Spec.has_head (copy n)); [|destruct I]. destruct I as [I|[I|[I|[]]]]; [injection I as <-; exact B1|discriminate|].
    injection I as <-. destruct (map (elements copy) ts), (Element_Model.a_tail (copy n)); assumption.
  - revert I. generalize ts IH. clear ts IH. induction ts as [|c r IHr]; intros F I; [destruct I|]. inversion F as [|? ? FC FR]; subst. cbn [map Element_Proofs.child_layout] in I. rewrite !in_app_iff in I.
    destruct I as [I|[I|I]]; [now apply FC| |now apply IHr]. destruct (Element_Spec.shown (elements copy c)); [|destruct I].
    destruct (map (elements copy) r); [destruct (Element_Spec.has_tail (copy n)); [destruct I|]|]; destruct I as [I|[]]; injection I as <-; auto.
  - destruct (Element_Spec.has_tail (copy n)); [|destruct I]. destruct I as [I|[I|[I|[]]]]; [injection I as <-; exact B4|discriminate|injection I as <-; exact B5].
Qed.
Lemma new_origins copy : (forall n, new_copy (copy n)) -> forall t, Element_Spec.has_origins (elements copy t).
Proof.
  intros N. induction t as [n ts IH] using tree_ind2. cbn [elements]. apply Element_Proofs.has_origins_eq. split; [right; destruct (N n) as [-> _]; discriminate|].
  induction IH as [|c r C _ IHr]; cbn [map Element_Proofs.all_origins]; auto.
Qed.

(** When the texts in the range can be written, the extracted tree is written as these texts, with only whitespace between them. *)
Theorem C144_written : forall cs attr copy t s e us, same_texts attr copy -> (forall n, new_copy (copy n)) -> (forall a x y, Element_Spec.blank (cs a x y)) ->
  valid t s -> valid t e -> chosen (reached s e) (located attr t) (map Ok us) ->
  exists f0 r t' out, new_range t s e = Ok r /\ (forall fuel, f0 <= fuel -> extract_tree fuel r = Ok t') /\
    Element_Model.write cs (elements copy t') = Ok out /\ Element_Spec.spaced (filter (fun u => match u with [] => false | _ => true end) us) out.
Proof.
  intros cs attr copy t s e us ST N C VS VE CH. destruct (C144_texts attr copy t s e ST VS VE) as (f0 & r & t' & ts & E & F & TS & CH').
  rewrite (chosen_unique _ _ _ _ CH' CH) in TS.
  destruct (Element_Props.C48_order cs (elements copy t') us (new_origins copy N t')) as (out & W & S); [|now apply blank_layout|].
  { rewrite TS. clear. induction us; constructor; [reflexivity|assumption]. }
  exists f0, r, t', out. auto.
Qed.
Print Assumptions C144_written.

(** { a { b c } d }, only c: the blocks around it are kept. *)
Definition ex_attr (n : nat) : attrs :=
  let sp := txt " "%string in
  match n with
  | 0 | 2 => Element_Model.Attrs Element_Model.Block n (Ok (txt "{"%string)) (txt "}"%string) None None false false [] sp sp sp []
  | 1 => Element_Model.Attrs Element_Model.Head n (Ok (txt "a"%string)) [] None None false false [] [] [] [] []
  | 3 => Element_Model.Attrs Element_Model.Head n (Ok (txt "b"%string)) [] None None false false [] [] [] [] []
  | 4 => Element_Model.Attrs Element_Model.Head n (Ok (txt "c"%string)) [] None None false false [] [] [] [] []
  | _ => Element_Model.Attrs Element_Model.Head n (Ok (txt "d"%string)) [] None None false false [] [] [] [] []
  end.
Example C144_witness : let t := T 0 [T 1 []; T 2 [T 3 []; T 4 []]; T 5 []] in let s := Some [1; 1] in let e := Some [1; 1] in
  same_texts ex_attr ex_attr /\ (forall n, new_copy (ex_attr n)) /\ valid t s /\ valid t e /\
  chosen (reached s e) (located ex_attr t) (map Ok [txt "{"%string; txt "{"%string; txt "c"%string; txt "}"%string; txt "}"%string]) /\
  Element_Model.write Element_Model.concat_default (elements ex_attr (T 0 [T 2 [T 4 []]])) = Ok (txt "{ { c } }"%string).
Proof.
  cbv zeta. split; [intros n; auto|]. split; [|split; [|split; [|split; [|reflexivity]]]].
  - intros n. do 6 (destruct n as [|n]; [split; [reflexivity|repeat constructor; intros c J; cbn in J; intuition (subst; reflexivity)]|]).
    split; [reflexivity|repeat constructor; intros c J; cbn in J; intuition (subst; reflexivity)].
  - eexists. econstructor; [reflexivity|]. econstructor; [reflexivity|]. constructor.
  - eexists. econstructor; [reflexivity|]. econstructor; [reflexivity|]. constructor.
  - cbn [located map head_texts tail_texts ex_attr app fst snd Element_Model.a_kind Element_Model.a_head Element_Model.a_tail].
    assert (P0 : reached (Some [1; 1]) (Some [1; 1]) []) by apply reached_nil.
    assert (P1 : reached (Some [1; 1]) (Some [1; 1]) [1]) by (split; [right; apply above_cons2; split; [reflexivity|apply above_nil]|apply upto_cons; right; split; [reflexivity|apply upto_nil]]).
    assert (P11 : reached (Some [1; 1]) (Some [1; 1]) [1; 1]) by (split; [left; now left|now left]).
    assert (N0 : ~ reached (Some [1; 1]) (Some [1; 1]) [0]).
    { intros [[H|H] _]; [apply upto_cons in H as [H|[H _]]; lia|apply above_cons2 in H as [H _]; lia]. }
    assert (N10 : ~ reached (Some [1; 1]) (Some [1; 1]) [1; 0]).
    { intros [[H|H] _]; [apply upto_cons in H as [H|[_ H]]; [lia|]; apply upto_cons in H as [H|[H _]]; lia|]. apply above_cons2 in H as [_ H]. apply above_cons2 in H as [H _]; lia. }
    assert (N2 : ~ reached (Some [1; 1]) (Some [1; 1]) [2]).
    { intros [_ H]. apply upto_cons in H as [H|[H _]]; lia. }
    apply chosen_keep; [exact P0|]. apply chosen_skip; [exact N0|]. apply chosen_keep; [exact P1|]. apply chosen_skip; [exact N10|]. apply chosen_keep; [exact P11|].
    apply chosen_keep; [exact P1|]. apply chosen_skip; [exact N2|]. apply chosen_keep; [exact P0|]. constructor.
Qed.
