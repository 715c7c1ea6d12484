(** Properties C42 (elements), C94, C95: copies of elements, origins and flags, the Python dump. *)
From Coq Require Import String Ascii List Arith PeanoNat Bool Lia.
From Verif Require Import Base Element_Model Element_Spec Copy_Model Copy_Spec.
Import ListNotations.
Local Open Scope list_scope.

Section Props.
Variable V : Type.
Variable veqb : V -> V -> bool.
Hypothesis veqb_eq : forall x y, veqb x y = true <-> x = y.
Variable base_of : nat -> base.
Variable default : nat -> nat -> str.
Variable init_head : nat -> V -> V.
Variable write_head : nat -> option V -> res str.
Variable write_tail : nat -> str.
Notation obj := (obj V). Notation Obj := (Obj V). Notation inst := (inst V).
Notation copy := (copy V default init_head).
Notation copy_with_origin := (copy_with_origin V base_of default init_head).
Notation elem_of := (elem_of V base_of default write_head write_tail).
Notation equals := (equals V veqb base_of).
Notation proper := (proper V base_of init_head).
Notation class_spacing := (class_spacing V default).
Notation every := (every V). Notation same_tree := (same_tree V).

Lemma obj_ind' (P : obj -> Prop) : (forall i k, Forall P k -> P (Obj i k)) -> forall o, P o.
Proof.
  intros H. fix IH 1. intros [i k]. apply H. induction k as [|c k IHk]; constructor; [apply IH | exact IHk].
Qed.

Lemma every_inv P i k : every P (Obj i k) -> P i /\ Forall (every P) k.
Proof. intros H. inversion H; subst. auto. Qed.
Lemma every_both P Q o : every P o -> every Q o -> every (fun i => P i /\ Q i) o.
Proof.
  revert o. refine (obj_ind' _ _). intros i k IH A B. destruct (every_inv _ _ _ A), (every_inv _ _ _ B). constructor; [auto|].
  rewrite Forall_forall in *. auto.
Qed.

Lemma Forall2_length {A B} (R : A -> B -> Prop) k l : Forall2 R k l -> length k = length l.
Proof. induction 1; cbn; congruence. Qed.
Lemma last_nonempty {A} (l : list A) x y d : last (x :: l) y = last (x :: l) d.
Proof. revert x. induction l as [|z l IH]; intros x; [reflexivity|]. exact (IH z). Qed.

(** ** C42: equals() and copy() of elements *)

(** equals() compares the classes and the heads in the same places. *)
Theorem C42_element_equals : forall a b, every proper a -> every proper b -> (equals a b = true <-> same_tree a b).
Proof.
  refine (obj_ind' _ _). intros i k IH [j l] A B. destruct (every_inv _ _ _ A) as [PI PK], (every_inv _ _ _ B) as [PJ PL].
  assert (S : forall k l, Forall (fun a => forall b, every proper a -> every proper b -> (equals a b = true <-> same_tree a b)) k ->
    Forall (every proper) k -> Forall (every proper) l -> length k = length l ->
    ((fix all (k l : list obj) : bool := match k, l with a :: k, b :: l => equals a b && all k l | _, _ => true end) k l = true <-> Forall2 same_tree k l)).
  { clear. induction k as [|a k IHk]; intros [|b l] I PK PL L; try discriminate L; [split; [constructor|reflexivity]|].
    inversion I; subst. inversion PK; subst. inversion PL; subst. injection L as L. rewrite andb_true_iff, (IHk l), (H1 b) by assumption.
    split; [intros [? ?]; constructor; assumption | intros F; inversion F; subst; auto]. }
  cbn [Copy_Model.equals]. rewrite !andb_true_iff, !Nat.eqb_eq. split.
  - intros [[[C L] H] G]. constructor; [exact C| |apply (S k l); assumption].
    unfold has_modified in H. unfold Copy_Spec.proper in PI, PJ. rewrite <- C in PJ. destruct (base_of (i_cls V i)).
    1-3: destruct PI as [-> _], PJ as [-> _]; reflexivity.
    destruct PI as [(x & EX & _) _], PJ as [(y & EY & _) _]. rewrite EX, EY in *. f_equal. apply veqb_eq. exact H.
  - intros Q. inversion Q as [? ? ? ? C H F]; subst. pose proof (Forall2_length _ _ _ F) as L. split; [split; [split; assumption|]|apply (S k l); assumption].
    destruct (has_modified base_of (i_cls V i)); [|reflexivity]. rewrite <- H. destruct (i_head V i); [apply veqb_eq; reflexivity|reflexivity].
Qed.

Lemma copied_head i : proper i -> i_head V (construct V default init_head (i_cls V i) (i_head V i) []) = i_head V i.
Proof.
  intros P. cbn. unfold Copy_Spec.proper in P. destruct (base_of (i_cls V i)); try (destruct P as [-> _]; reflexivity).
  destruct P as [(h & -> & E) _]. cbn. rewrite E. reflexivity.
Qed.

(** A copy equals the original, and every element of it is new: it has no origin and is not modified. *)
Theorem C42_element_copy : forall o, every proper o ->
  same_tree (copy o) o /\ every proper (copy o) /\
  every (fun i => i_head_origin V i = None /\ i_tail_origin V i = None /\ i_modified V i = (false, false)) (copy o).
Proof.
  refine (obj_ind' _ _). intros i k IH A. destruct (every_inv _ _ _ A) as [PI PK].
  assert (G : Forall2 same_tree (map copy k) k /\ Forall (every proper) (map copy k) /\
    Forall (every (fun i => i_head_origin V i = None /\ i_tail_origin V i = None /\ i_modified V i = (false, false))) (map copy k)).
  { clear A. induction k as [|c k IHk]; [split; [|split]; constructor|]. inversion IH; subst. inversion PK; subst.
    destruct (IHk H2 H4) as (X & Y & Z). destruct (H1 H3) as (X' & Y' & Z'). split; [|split]; constructor; assumption. }
  destruct G as (G1 & G2 & G3). cbn [Copy_Model.copy]. split; [|split].
  - constructor; [reflexivity|exact (copied_head i PI)|exact G1].
  - constructor; [|exact G2]. unfold Copy_Spec.proper. pose proof (copied_head i PI) as H. unfold Copy_Spec.proper in PI.
    cbn [construct i_cls i_head i_tail_origin i_head_origin i_modified spacing_argument] in *.
    destruct (base_of (i_cls V i)); rewrite H; try (destruct PI as (-> & _); repeat split; reflexivity).
    destruct PI as [(h & E & I) _]. split; [exists h; auto|reflexivity].
  - constructor; [repeat split|exact G3].
Qed.

(** The text does not depend on the origins. *)
Definition unplaced_point (p : point) : point := Point None (p_text p) false (p_before p) (p_after p).
Lemma collapse_unplaced ps w : collapse_last (map unplaced_point ps) w = map unplaced_point (collapse_last ps w).
Proof. induction ps as [|p [|q r] IH]; [reflexivity|reflexivity|]. cbn [map collapse_last] in *. rewrite IH. reflexivity. Qed.
Lemma points_unplaced cs : unplaced_space cs -> forall e, has_origins e ->
  exists ps, points cs e = Ok ps /\ points cs (unplaced_elem e) = Ok (map unplaced_point ps).
Proof.
  intros U. fix IH 1. intros [a kids] O. cbn [has_origins] in O. destruct O as [OA OK].
  assert (K : forall tp tp' : option point, (tp = None <-> tp' = None) -> exists body,
     (fix children (l : list elem) : res (list point) :=
           match l with
           | [] => Ok []
           | n :: r =>
               let! ps := points cs n in
               match r with
               | [] => Ok (match tp with None => collapse_last ps (a_after a) | Some _ => ps end)
               | m :: _ => let! rest := children r in Ok (collapse_last ps (cs a n m) ++ rest)
               end
           end) kids = Ok body /\
     (fix children (l : list elem) : res (list point) :=
           match l with
           | [] => Ok []
           | n :: r =>
               let! ps := points cs n in
               match r with
               | [] => Ok (match tp' with None => collapse_last ps (a_after (unplaced a)) | Some _ => ps end)
               | m :: _ => let! rest := children r in Ok (collapse_last ps (cs (unplaced a) n m) ++ rest)
               end
           end) (map unplaced_elem kids) = Ok (map unplaced_point body)).
  { intros tp tp' T. induction kids as [|n r IHr]; [exists []; split; reflexivity|]. destruct OK as [ON OR].
    destruct (IH n ON) as (ps & P1 & P2). destruct (IHr OR) as (body & B1 & B2). destruct r as [|m r].
    - cbn [map]. rewrite P1, P2. cbn [bindr]. destruct tp as [t|], tp' as [t'|]; try (exfalso; destruct T as [T1 T2]; first [discriminate (T1 eq_refl)|discriminate (T2 eq_refl)]).
      + exists ps. split; reflexivity.
      + exists (collapse_last ps (a_after a)). split; [reflexivity|]. cbn [unplaced a_after]. rewrite collapse_unplaced. reflexivity.
    - exists (collapse_last ps (cs a n m) ++ body). cbn [map] in B2 |- *.
      rewrite P1, P2. cbn [bindr]. rewrite B1, B2. cbn [bindr]. split; [reflexivity|]. rewrite U, collapse_unplaced, map_app. reflexivity. }
  destruct (K (tail_point a) (tail_point (unplaced a))) as (body & B1 & B2).
  { unfold tail_point. cbn. destruct (a_kind a); split; intros; first [reflexivity|discriminate]. }
  cbn [points unplaced_elem]. rewrite B1, B2.
  assert (H : exists hp, head_point a kids = Ok hp /\ head_point (unplaced a) (map unplaced_elem kids) = Ok (option_map unplaced_point hp)).
  { unfold head_point. cbn. rewrite map_length. destruct (a_kind a); [exists None; split; reflexivity| |]; (destruct OA as [X|X]; [discriminate|]);
      (destruct (a_head_origin a) as [[|t o]|]; [contradiction| |]); cbn; eexists; split; reflexivity. }
  destruct H as (hp & H1 & H2). rewrite H1, H2. cbn [bindr]. eexists. split; [reflexivity|]. rewrite !map_app. do 3 f_equal.
  - destruct hp; reflexivity.
  - unfold tail_point. cbn. destruct (a_kind a); reflexivity.
Qed.
Lemma fragments_unplaced ps : fragments (map unplaced_point ps) = fragments ps.
Proof. induction ps as [|p ps IH]; [reflexivity|]. cbn [map fragments]. rewrite IH. reflexivity. Qed.
Lemma write_unplaced cs e : unplaced_space cs -> has_origins e -> write cs (unplaced_elem e) = write cs e.
Proof.
  intros U O. destruct (points_unplaced cs U e O) as (ps & P1 & P2). unfold write. rewrite P1, P2. cbn [bindr]. rewrite fragments_unplaced. reflexivity.
Qed.

Lemma default_get d o : (forall n, space_get d o n = d n) -> forall n, space_get d o n = space_get d None n.
Proof. intros H n. rewrite H. reflexivity. Qed.
Lemma elem_copy : forall o, every proper o -> every class_spacing o -> elem_of (copy o) = unplaced_elem (elem_of o).
Proof.
  refine (obj_ind' _ _). intros i k IH A B. destruct (every_inv _ _ _ A) as [PI PK], (every_inv _ _ _ B) as [SI SK].
  cbn [Copy_Model.copy Copy_Model.elem_of unplaced_elem]. f_equal.
  - unfold attrs_of_inst, unplaced. cbn [a_kind a_id a_head a_tail a_before a_after_head a_between a_before_tail a_after].
    rewrite !(default_get _ _ SI). cbn [spacing_argument]. rewrite copied_head by exact PI. reflexivity.
  - rewrite !map_map. apply map_ext_in. intros c I. rewrite Forall_forall in *. auto.
Qed.
Lemma elem_origins : forall o, every (real_origin V) o -> has_origins (elem_of o).
Proof.
  refine (obj_ind' _ _). intros i k IH C. destruct (every_inv _ _ _ C) as [RI RK]. cbn [Copy_Model.elem_of has_origins]. split; [right; exact RI|].
  clear C. induction k as [|c k IHk]; [exact Logic.I|]. inversion IH as [|? ? A1 A2]; subst. inversion RK as [|? ? B1 B2]; subst. cbn [map]. split; [exact (A1 B1)|exact (IHk A2 B2)].
Qed.
(** The copy writes the same text, if no spacing property was changed. *)
(** Missing for the full claim: elements with own values of spacing properties (the finding below). *)
Theorem C42_text_partial : forall concat_space o, unplaced_space concat_space -> every proper o -> every class_spacing o -> every (real_origin V) o ->
  write concat_space (elem_of (copy o)) = write concat_space (elem_of o).
Proof.
  intros cs o U A B C. rewrite elem_copy by assumption. apply write_unplaced; [exact U|]. apply elem_origins. exact C.
Qed.
(** Finding: own values of the spacing properties are lost in every copy. *)
Theorem C42_spacing_finding : forall o, every class_spacing (copy o) /\ every class_spacing (copy_with_origin o).
Proof.
  refine (obj_ind' _ _). intros i k IH. rewrite Forall_forall in IH. split; constructor; try (apply Forall_forall; intros x I; apply in_map_iff in I; destruct I as (c & <- & I); apply IH; exact I).
  - intros n. reflexivity.
  - intros n. unfold copy_origin_from. destruct (match i_head_origin V i with Some _ => _ | None => _ end) as [[ho to] flag]. reflexivity.
Qed.

(** ** C94: copies with origin, the modified flag *)
(** A copy with origin is the same element in every respect, so writing it and writing it back do the same. *)
Theorem C94_same : forall o, every proper o -> every class_spacing o -> same_tree (copy_with_origin o) o /\ elem_of (copy_with_origin o) = elem_of o.
Proof.
  refine (obj_ind' _ _). intros i k IH A B. destruct (every_inv _ _ _ A) as [PI PK], (every_inv _ _ _ B) as [SI SK]. rewrite Forall_forall in *.
  cbn [Copy_Model.copy_with_origin Copy_Model.elem_of].
  assert (Q : let j := copy_origin_from V base_of (construct V default init_head (i_cls V i) (i_head V i) (spacing_argument V i)) i None in
    i_cls V j = i_cls V i /\ i_head V j = i_head V i /\ i_space V j = None /\ i_head_origin V j = i_head_origin V i /\ i_tail_origin V j = i_tail_origin V i /\ i_modified V j = i_modified V i).
  { pose proof (copied_head i PI) as H. cbn [construct i_head] in H. unfold copy_origin_from, Copy_Spec.proper, has_head_origin, has_tail_origin, has_modified in *. cbn [construct i_cls i_head i_space i_head_origin i_tail_origin i_modified spacing_argument fold_left].
    destruct (base_of (i_cls V i)).
    - destruct PI as (E & M & -> & ->). cbn. rewrite M. repeat split. exact H.
    - destruct PI as (E & M & ->). destruct (i_head_origin V i); cbn; rewrite M; repeat split; exact H.
    - destruct PI as (E & M & T). destruct (i_head_origin V i); [destruct (i_tail_origin V i)|rewrite T by reflexivity]; cbn; rewrite M; repeat split; exact H.
    - destruct PI as (_ & ->). destruct (i_head_origin V i); cbn; repeat split; exact H. }
  cbv zeta in Q. destruct Q as (Q1 & Q2 & Q3 & Q4 & Q5 & Q6). split.
  - constructor; [exact Q1|exact Q2|]. clear - IH PK SK. induction k as [|c k IHk]; constructor.
    + apply IH; [left; reflexivity|apply PK; left; reflexivity|apply SK; left; reflexivity].
    + apply IHk; intros; first [apply IH|apply PK|apply SK]; first [right; assumption|assumption].
  - f_equal.
    + unfold attrs_of_inst. rewrite Q1, Q2, Q3, Q4, Q5, Q6, !(default_get _ _ SI). reflexivity.
    + rewrite map_map. apply map_ext_in. intros c I. apply IH; auto.
Qed.
Theorem C94_edits : forall o, every proper o -> every class_spacing o -> forall concat_space context_pos context_end tokens start end_,
  write concat_space (elem_of (copy_with_origin o)) = write concat_space (elem_of o) /\
  edits concat_space (elem_of (copy_with_origin o)) context_pos context_end tokens start end_ = edits concat_space (elem_of o) context_pos context_end tokens start end_.
Proof. intros o A B. intros. destruct (C94_same o A B) as [_ ->]. split; reflexivity. Qed.

(** Taking over the origin: the element keeps class and head, its origin is that of the other as far as it can have one, and it is marked as modified, as
    not modified, or like the other. *)
Theorem C94_origin_from : forall self other m h, i_head_origin V other = Some h -> base_of (i_cls V self) = BText ->
  let r := copy_origin_from V base_of self other m in
  i_cls V r = i_cls V self /\ i_head V r = i_head V self /\ i_space V r = i_space V self /\ i_head_origin V r = Some h /\
  i_modified V r = match m with Some b => (b, false) | None => i_modified V other end.
Proof.
  intros self other m h E B. unfold copy_origin_from, has_head_origin, has_tail_origin, has_modified. rewrite E, B.
  destruct (i_tail_origin V other), m as [[]|]; cbn; repeat split.
Qed.
Theorem C94_origin_from_block : forall self other m h t, i_head_origin V other = Some h -> i_tail_origin V other = Some t -> base_of (i_cls V self) = BBlock ->
  let r := copy_origin_from V base_of self other m in
  i_head_origin V r = Some h /\ i_tail_origin V r = Some t /\ i_modified V r = i_modified V self.
Proof.
  intros self other m h t E T B. unfold copy_origin_from, has_head_origin, has_tail_origin, has_modified. rewrite E, T, B. repeat split.
Qed.
(** If there is no origin to take over, or no place for it, the element keeps what it had; it is marked as modified only if the other one is and that was asked for. *)
Theorem C94_origin_from_none : forall self other m, i_head_origin V other = None ->
  let r := copy_origin_from V base_of self other m in
  i_cls V r = i_cls V self /\ i_head V r = i_head V self /\ i_space V r = i_space V self /\ i_head_origin V r = i_head_origin V self /\ i_tail_origin V r = i_tail_origin V self /\
  (base_of (i_cls V self) = BText -> i_modified V r = match m with Some _ => (false, false) | None => i_modified V other end) /\
  (base_of (i_cls V self) <> BText -> r = self).
Proof.
  intros self other m E. unfold copy_origin_from, has_modified. rewrite E. cbn. repeat (split; [reflexivity|]). split.
  - intros ->. destruct m as [[]|]; reflexivity.
  - intros N. destruct self. cbn in *. destruct (base_of _); try reflexivity. contradiction.
Qed.
Theorem C94_origin_from_plain : forall self other m, base_of (i_cls V self) = BPlain -> copy_origin_from V base_of self other m = self.
Proof. intros self other m B. unfold copy_origin_from, has_head_origin, has_modified. rewrite B. destruct (i_head_origin V other), self; reflexivity. Qed.
(** What is written of an element: its text, its origin, which part is modified and its spacing. *)
Theorem C94_written : forall i, let a := attrs_of_inst V base_of default write_head write_tail i in
  a_head a = write_head (i_cls V i) (i_head V i) /\ a_tail a = write_tail (i_cls V i) /\ a_head_origin a = i_head_origin V i /\ a_tail_origin a = i_tail_origin V i /\
  (a_head_modified a, a_tail_modified a) = i_modified V i /\
  [a_before a; a_after_head a; a_between a; a_before_tail a; a_after a] = map (space_get (default (i_cls V i)) (i_space V i)) [0; 1; 2; 3; 4].
Proof. intros i. cbn. repeat split. destruct (i_modified V i); reflexivity. Qed.

(** Assigning heads one after another: the head is the last value assigned, the rest of the element stays the same, and it is marked as modified if and only if it was
    already or one of the values was a change. *)
Fixpoint assign (i : inst) (values : list V) : res inst :=
  match values with [] => Ok i | v :: r => let! j := set_head V veqb base_of i v in assign j r end.
Theorem C94_assign : forall values i h, base_of (i_cls V i) = BText -> i_head V i = Some h ->
  exists j, assign i values = Ok j /\ i_head V j = Some (last values h) /\
    i_cls V j = i_cls V i /\ i_space V j = i_space V i /\ i_head_origin V j = i_head_origin V i /\ i_tail_origin V j = i_tail_origin V i /\
    snd (i_modified V j) = snd (i_modified V i) /\
    (fst (i_modified V j) = true <-> fst (i_modified V i) = true \/ changes V veqb h values).
Proof.
  induction values as [|v values IH]; intros i h B H.
  - exists i. cbn [assign last]. repeat (split; [first [reflexivity|exact H]|]). split; [auto|]. intros [X|(a & b & c & E & d & r & -> & _)]; [exact X|].
    destruct a as [|x [|y a]]; discriminate E.
  - cbn [assign]. unfold set_head. rewrite B, H. destruct (veqb v h) eqn:Q; cbn [bindr].
    + apply veqb_eq in Q as ->. destruct (IH i h B H) as (j & A & L & C & SP & HO & TO & M2 & M). exists j. repeat (split; [first [assumption|reflexivity]|]).
      split; [rewrite L; destruct values; [reflexivity|f_equal; apply last_nonempty]|]. repeat (split; [assumption|]). rewrite M. split.
      * intros [X|(a & b & c & E & d & r & -> & F)]; [auto|right]. exists (h :: a), b, (d :: r). split; [cbn [app]; f_equal; exact E|eauto].
      * intros [X|(a & b & c & E & d & r & -> & F)]; [auto|right]. destruct a as [|x a]; cbn [app] in E.
        -- injection E as <- <- <-. assert (T : veqb h h = true) by (apply veqb_eq; reflexivity). congruence.
        -- injection E as _ E. exists a, b, (d :: r). split; [exact E|eauto].
    + destruct (IH (Inst V (i_cls V i) (Some v) (i_space V i) (i_head_origin V i) (i_tail_origin V i) (true, snd (i_modified V i))) v B eq_refl) as (j & A & L & C & SP & HO & TO & M2 & M).
      cbn in C, SP, HO, TO, M2, M. exists j. split; [exact A|]. split; [rewrite L; destruct values as [|v0 values]; [reflexivity|f_equal; exact (last_nonempty values v0 v h)]|]. repeat (split; [assumption|]). rewrite M. split; [intros _; right|auto].
      exists [], h, (v :: values). split; [reflexivity|]. exists v, values. auto.
Qed.

(** ** C95: py_dump() *)
Variable module class_name : nat -> str.
Variable repr : V -> str.
Notation py_dump := (py_dump V base_of module class_name repr).
Notation dump_loop := (dump_loop V base_of module class_name repr).
Notation dump_head := (dump_head V base_of module class_name repr).
Notation expression := (expression V base_of module class_name repr).
Notation children := (children V base_of module class_name repr).

Fixpoint pretty (w level : nat) (more : bool) (o : obj) : str :=
  match o with
  | Copy_Model.Obj _ i kids =>
      dump_head w level o ++
      (match kids with [] => [] | _ => [newline] end) ++
      (fix go (l : list obj) : str := match l with [] => [] | c :: r => pretty w (S level) (match r with [] => false | _ => true end) c ++ go r end) kids ++
      dump_tail more
  end.
Fixpoint pnodes (w level : nat) (l : list obj) : str :=
  match l with [] => [] | c :: r => pretty w level (match r with [] => false | _ => true end) c ++ pnodes w level r end.
Lemma pretty_eq w level more i kids : pretty w level more (Obj i kids) =
  dump_head w level (Obj i kids) ++ (match kids with [] => [] | _ => [newline] end) ++ pnodes w (S level) kids ++ dump_tail more.
Proof. cbn [pretty]. f_equal. f_equal. f_equal. induction kids as [|c r IH]; [reflexivity|]. cbn [pnodes]. rewrite IH. reflexivity. Qed.
Fixpoint pstack (w : nat) (more : bool) (st : list (list obj * str)) : str :=
  match st with
  | [] => []
  | (gen, text) :: st' => text ++ (match st' with [] => flat_map (pretty w 0 more) gen | _ => pnodes w (length st') gen end) ++ pstack w more st'
  end.
Fixpoint osize (o : obj) : nat := match o with Copy_Model.Obj _ i kids => S (S ((fix go (l : list obj) : nat := match l with [] => 0 | c :: r => osize c + go r end) kids)) end.
Fixpoint gsize (l : list obj) : nat := match l with [] => 0 | c :: r => osize c + gsize r end.
Fixpoint ssize (st : list (list obj * str)) : nat := match st with [] => 0 | (g, _) :: r => S (gsize g + ssize r) end.
Lemma osize_eq i kids : osize (Obj i kids) = S (S (gsize kids)).
Proof. reflexivity. Qed.
Lemma loop_pretty w more : forall fuel gen st, gsize gen + ssize st < fuel ->
  dump_loop fuel w more gen st = Ok ((match st with [] => flat_map (pretty w 0 more) gen | _ => pnodes w (length st) gen end) ++ pstack w more st).
Proof.
  induction fuel as [|f IH]; intros gen st L; [lia|]. cbn [Copy_Model.dump_loop]. destruct gen as [|[i kids] gen].
  - destruct st as [|[g t] st]; [reflexivity|]. cbn [ssize gsize] in L. rewrite IH by lia. cbn [bindr pnodes pstack app]. destruct st; rewrite <- ?app_assoc; reflexivity.
  - cbn [gsize] in L. rewrite osize_eq in L. cbn [kids_of]. destruct kids as [|k kids].
    + rewrite IH by (cbn [gsize] in L; lia). cbn [bindr]. f_equal. destruct st as [|s st].
      * cbn [flat_map]. rewrite pretty_eq. cbn [pnodes app length]. rewrite <- !app_assoc. reflexivity.
      * cbn [pnodes]. rewrite pretty_eq. cbn [pnodes app]. rewrite <- !app_assoc. reflexivity.
    + rewrite IH by (cbn [ssize] in *; lia). cbn [bindr]. f_equal. cbn [length pstack]. destruct st as [|s st].
      * cbn [flat_map]. rewrite pretty_eq. rewrite <- !app_assoc. reflexivity.
      * cbn [pnodes]. rewrite pretty_eq. cbn [pnodes]. rewrite <- !app_assoc. reflexivity.
Qed.

Lemma pretty_expression : forall o, every proper o -> forall w level more, exists s, pretty w level more o = s ++ (if more then txt "," ++ [newline] else []) /\ expression s o.
Proof.
  refine (obj_ind' _ _). intros i kids IH A w level more. destruct (every_inv _ _ _ A) as [PI PK].
  assert (K : forall l, Forall (fun o => every proper o -> forall w level more, exists s, pretty w level more o = s ++ (if more then txt "," ++ [newline] else []) /\ expression s o) l ->
    Forall (every proper) l -> l <> [] -> forall b, blank b -> children (b ++ pnodes w (S level) l) l).
  { clear. induction l as [|c l IHl]; intros I P N b Bl; [contradiction|]. inversion I; subst. inversion P; subst. cbn [pnodes].
    destruct (H1 H3 w (S level) (match l with [] => false | _ => true end)) as (s & -> & E). destruct l as [|d l].
    - cbn [pnodes]. rewrite !app_nil_r. constructor; assumption.
    - rewrite <- !app_assoc. apply children_more; [exact Bl|exact E|]. change ([newline] ++ pnodes w (S level) (d :: l)) with ([newline] ++ pnodes w (S level) (d :: l)).
      apply IHl; [assumption|assumption|discriminate|]. constructor; [right; reflexivity|constructor]. }
  specialize (K kids IH PK). rewrite pretty_eq. unfold Copy_Model.dump_head. cbn [inst_of kids_of]. rewrite <- !app_assoc.
  assert (Bl : blank (List.repeat " "%char (level * w))). { unfold blank. apply Forall_forall. intros c I. apply repeat_spec in I. auto. }
  assert (T : dump_tail more = txt ")" ++ (if more then txt "," ++ [newline] else [])) by (destruct more; reflexivity). rewrite T.
  unfold has_modified. unfold Copy_Spec.proper in PI. destruct (base_of (i_cls V i)) eqn:Bs.
  1-3: destruct kids as [|k kids]; cbn [app];
    [eexists; split; [|apply (expression_call V base_of module class_name repr (List.repeat " "%char (level * w)) i []); [exact Bl|apply arguments_none; congruence]]; rewrite <- !app_assoc; reflexivity
    |eexists; split; [|apply (expression_call V base_of module class_name repr (List.repeat " "%char (level * w)) i ([newline] ++ pnodes w (S level) (k :: kids))); [exact Bl|apply arguments_children; [congruence|]; refine (K _ [newline] _); [discriminate|constructor; [right; reflexivity|constructor]]]]; rewrite <- !app_assoc; reflexivity].
  destruct PI as [(h & H & _) _]. rewrite H. destruct kids as [|k kids].
  - eexists. split; [|apply (expression_call V base_of module class_name repr (List.repeat " "%char (level * w)) i (repr h)); [exact Bl|apply arguments_text; assumption]]. cbn [pnodes]. rewrite <- !app_assoc. reflexivity.
  - eexists. split; [|apply (expression_call V base_of module class_name repr (List.repeat " "%char (level * w)) i (repr h ++ txt "," ++ [newline] ++ pnodes w (S level) (k :: kids))); [exact Bl|apply arguments_text_children; [assumption|assumption|]; refine (K _ [newline] _); [discriminate|constructor; [right; reflexivity|constructor]]]].
    rewrite <- !app_assoc. reflexivity.
Qed.

(** The dump of a tree is a Python expression that constructs the same tree; if the node has a next sibling a comma and a newline follow. *)
Theorem C95_dump : forall o, every proper o -> exists f0, forall fuel, f0 <= fuel -> forall indent_width more, exists s,
  py_dump fuel indent_width more o = Ok (s ++ (if more then txt "," ++ [newline] else [])) /\ expression s o.
Proof.
  intros o A. exists (S (gsize [o])). intros fuel L w more. destruct (pretty_expression o A w 0 more) as (s & E & X). exists s. split; [|exact X].
  unfold Copy_Model.py_dump. rewrite loop_pretty by (cbn [ssize]; lia). cbn [flat_map pstack]. rewrite !app_nil_r, E. reflexivity.
Qed.
End Props.
Print Assumptions C42_element_equals. Print Assumptions C42_element_copy. Print Assumptions C42_text_partial. Print Assumptions C42_spacing_finding.
Print Assumptions C94_same. Print Assumptions C94_edits. Print Assumptions C94_origin_from. Print Assumptions C94_origin_from_block. Print Assumptions C94_origin_from_none. Print Assumptions C94_origin_from_plain. Print Assumptions C94_written. Print Assumptions C94_assign.
Print Assumptions C95_dump.

(** A document (class 0) with a block (1) that contains two texts (2), the first one changed. *)
Definition w_base (c : nat) : base := match c with 0 => BPlain | 1 => BBlock | _ => BText end.
Definition w_default (c n : nat) : str := match c, n with 1, 1 => txt " " | 1, 2 => txt " " | 1, 3 => txt " " | _, _ => [] end.
Definition w_init (c : nat) (h : str) : str := h.
Definition w_head (c : nat) (h : option str) : res str := match c, h with 1, _ => Ok (txt "{") | _, Some h => Ok h | _, None => Ok [] end.
Definition w_tail (c : nat) : str := match c with 1 => txt "}" | _ => [] end.
Definition w_tree : obj str :=
  Obj str (Inst str 0 None None None None (false, false))
    [Obj str (Inst str 1 None None (Some [Tok 0 1]) (Some [Tok 6 7]) (false, false))
       [Obj str (Inst str 2 (Some (txt "d")) None (Some [Tok 2 3]) None (true, false)) [];
        Obj str (Inst str 2 (Some (txt "e")) None None None (false, false)) []]].
Example C42_element_witness : every str (proper str w_base w_init) w_tree /\ every str (class_spacing str w_default) w_tree /\ every str (real_origin str) w_tree /\
  unplaced_space concat_default /\
  write concat_default (elem_of str w_base w_default w_head w_tail (copy str w_default w_init w_tree)) = Ok (txt "{ d e }").
Proof.
  split; [|split; [|split; [|split]]].
  - constructor; [cbn; auto|]. constructor; [|constructor]. constructor; [cbn; repeat split; discriminate|].
    repeat constructor; cbn; eexists; split; reflexivity.
  - repeat constructor.
  - constructor; [discriminate|]. constructor; [|constructor]. constructor; [discriminate|]. constructor; [|constructor; [|constructor]]; constructor; first [discriminate|constructor].
  - intros a n m. reflexivity.
  - reflexivity.
Qed.
(** With another space between the children the copy writes another text. *)
Definition w_spaced : obj str :=
  Obj str (Inst str 1 None (Some [(2, txt "   ")]) None None (false, false)) (kids_of str (hd w_tree (kids_of str w_tree))).
Example C42_spacing_witness :
  write concat_default (elem_of str w_base w_default w_head w_tail w_spaced) = Ok (txt "{ d   e }") /\
  write concat_default (elem_of str w_base w_default w_head w_tail (copy str w_default w_init w_spaced)) = Ok (txt "{ d e }") /\
  write concat_default (elem_of str w_base w_default w_head w_tail (copy_with_origin str w_base w_default w_init w_spaced)) = Ok (txt "{ d e }").
Proof. repeat split; reflexivity. Qed.
Example C94_witness :
  edits concat_default (elem_of str w_base w_default w_head w_tail (copy_with_origin str w_base w_default w_init w_tree)) 0 7 [Tok 0 1; Tok 2 3; Tok 6 7] None None =
  Ok [Change 2 3 (txt "d"); Change 3 3 (txt " e")].
Proof. vm_compute. reflexivity. Qed.
Example C95_witness : py_dump str w_base (fun _ => txt "m") (fun c => match c with 0 => txt "D" | 1 => txt "B" | _ => txt "T" end) (fun h => txt "'" ++ h ++ txt "'") 20 1 false w_tree =
  Ok (txt "m.D(" ++ [newline] ++ txt " m.B(" ++ [newline] ++ txt "  m.T('d')," ++ [newline] ++ txt "  m.T('e')))").
Proof. reflexivity. Qed.
