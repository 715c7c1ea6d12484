(** Property C85: the other end of a spanner. *)
From Coq Require Import List ZArith Bool PeanoNat Relations Sorting.Sorted Lia ZifyBool ZifyNat.
From Verif Require Import Base Node_Model Node_Spec Node_Proofs Node_Nav Node_More Node_Edits Node_Props Spanner_Model Spanner_Spec.
Import ListNotations.

Section Proofs.
Context {B : Type}.
Variable boundary : nat -> bool.
Variable spanner_id : nat -> bool.
Variable start : B -> bool.
Variable beq : B -> B -> bool.
Implicit Types h : heap B.

Lemma in_id_iff h n : integrity h -> listed h n -> (in_spanner_id spanner_id h n = true <-> in_id spanner_id h n).
Proof.
  intros I [q Q]. unfold in_spanner_id. rewrite (i_parent h I q n Q). split.
  - intros E. now exists q.
  - intros (s & E & K). apply (i_parent h I) in K. rewrite (i_parent h I q n Q) in K. congruence.
Qed.

(** The left sibling in a SpannerId is the id. *)
Lemma id_spec h n : integrity h -> listed h n -> in_spanner_id spanner_id h n = true ->
  exists o, left_sibling h n = Ok o /\ forall i, o = Some i <-> has_id spanner_id h n i.
Proof.
  intros I [q Q] E. unfold in_spanner_id in E. rewrite (i_parent h I q n Q) in E. destruct (In_nth_error _ _ Q) as [k K].
  destruct (C39_siblings h q k n I K) as (_ & L & _). eexists. split; [exact L|]. intros i. split.
  - destruct k as [|k]; [discriminate|]. intros J. exists q, k. auto.
  - intros (s & k2 & _ & E1 & E2). assert (s = q) by (apply (listed_once h s q n I); [now apply nth_error_In in E2|exact Q]). subst s.
    pose proof (find_index_nth _ _ _ (i_once h I q) K) as X1. rewrite (find_index_nth _ _ _ (i_once h I q) E2) in X1. injection X1 as <-. exact E1.
Qed.

Lemma not_in_no_id h n i : ~ in_id spanner_id h n -> ~ has_id spanner_id h n i.
Proof. intros N (s & k & S1 & _ & K). apply N. exists s. split; [exact S1|now apply nth_error_In in K]. Qed.

Lemma ok_spec h self id n : integrity h -> listed h n -> (forall i, id = Some i <-> has_id spanner_id h self i) ->
  exists f0 v, (forall fuel, f0 <= fuel -> spanner_ok spanner_id beq fuel h id n = Ok v) /\ (v = true <-> same_id spanner_id beq h self n).
Proof.
  intros I L ID. unfold spanner_ok. pose proof (in_id_iff h n I L) as IN. destruct id as [i|].
  - assert (HI : has_id spanner_id h self i) by now apply ID.
    destruct (in_spanner_id spanner_id h n) eqn:E.
    + destruct (id_spec h n I L E) as (o & -> & O). cbn [bindr]. destruct o as [j|].
      * destruct (C42_equals beq h i j I) as (f0 & v & E1 & E2). exists f0, v. split; [exact E1|]. rewrite E2. split.
        -- intros AL. left. exists i, j. split; [exact HI|]. split; [now apply O|exact AL].
        -- intros [(i2 & j2 & A & C & AL)|[N _]]; [|now apply N in HI]. apply ID in A. apply O in C. congruence.
      * exists 0, false. split; [reflexivity|]. split; [discriminate|]. intros [(i2 & j2 & A & C & AL)|[N _]]; [apply O in C; discriminate|now apply N in HI].
    + exists 0, false. split; [reflexivity|]. split; [discriminate|]. intros [(i2 & j2 & A & C & AL)|[N _]]; [|now apply N in HI].
      destruct (not_in_no_id h n j2); [|exact C]. rewrite <- IN. discriminate.
  - exists 0, (negb (in_spanner_id spanner_id h n)). split; [reflexivity|]. rewrite negb_true_iff. split.
    + intros E. right. split; [intros i HI; apply ID in HI; discriminate|]. rewrite <- IN, E. discriminate.
    + intros [(i2 & j2 & A & C & AL)|[_ N]]; [apply ID in A; discriminate|]. rewrite <- IN in N. now destruct (in_spanner_id spanner_id h n).
Qed.

Definition fits h self n : Prop := cls h n = cls h self /\ start (body h n) <> start (body h self) /\ same_id spanner_id beq h self n.

Lemma parallel_iff h self n : parallel start h self n = true <-> cls h n = cls h self /\ start (body h n) <> start (body h self).
Proof.
  unfold parallel. rewrite andb_true_iff, Nat.eqb_eq, negb_true_iff. destruct (Bool.eqb (start (body h n)) (start (body h self))) eqn:E.
  - apply eqb_prop in E. split; [intros [_ X]; discriminate|tauto].
  - apply eqb_false_iff in E. tauto.
Qed.

(** The first that fits: with what comes before it. *)
Definition first_of (P : nat -> Prop) (ys : list nat) (o : option nat) : Prop :=
  match o with
  | None => forall y, In y ys -> ~ P y
  | Some m => exists a b, ys = a ++ m :: b /\ P m /\ forall y, In y a -> ~ P y
  end.

Lemma first_spec h self id ys : integrity h -> (forall y, In y ys -> listed h y) -> (forall i, id = Some i <-> has_id spanner_id h self i) ->
  exists f0 o, (forall fuel, f0 <= fuel -> first_parallel spanner_id start beq fuel h self id ys = Ok o) /\ first_of (fits h self) ys o.
Proof.
  intros I L ID. induction ys as [|y ys IH]; [exists 0, None; split; [reflexivity|intros ? []]|].
  destruct (IH ltac:(intros z J; apply L; now right)) as (f1 & o & E1 & F1). cbn [first_parallel].
  assert (SKIP : ~ fits h self y -> first_of (fits h self) (y :: ys) o).
  { intros N. destruct o as [m|]; cbn in *.
    - destruct F1 as (a & b & -> & PM & NA). exists (y :: a), b. split; [reflexivity|]. split; [exact PM|]. intros z [<-|J]; [exact N|now apply NA].
    - intros z [<-|J]; [exact N|now apply F1]. }
  destruct (parallel start h self y) eqn:P.
  - apply parallel_iff in P as [P1 P2]. destruct (ok_spec h self id y I (L y (or_introl eq_refl)) ID) as (f2 & v & E2 & V). destruct v.
    + exists f2, (Some y). split; [intros fuel G; now rewrite E2|]. exists [], ys. split; [reflexivity|]. split; [|intros ? []]. repeat split; auto. now apply V.
    + exists (Nat.max f1 f2), o. split; [intros fuel G; rewrite E2 by lia; cbn [bindr]; apply E1; lia|]. apply SKIP. intros (_ & _ & S1). apply V in S1. discriminate.
  - exists f1, o. split; [exact E1|]. apply SKIP. intros (P1 & P2 & _). assert (X : parallel start h self y = true) by (apply parallel_iff; auto). congruence.
Qed.

(** The innermost boundary. *)
Lemma find_split {A} (f : A -> bool) l x : find f l = Some x -> exists a b, l = a ++ x :: b /\ f x = true /\ forall y, In y a -> f y = false.
Proof.
  induction l as [|z l IH]; [discriminate|]. cbn [find]. destruct (f z) eqn:E.
  - intros [= <-]. exists [], l. split; [reflexivity|]. split; [exact E|intros ? []].
  - intros F. destruct (IH F) as (a & b & -> & FX & NA). exists (z :: a), b. split; [reflexivity|]. split; [exact FX|]. intros y [<-|J]; auto.
Qed.

Lemma upto_spec h r p self pu : integrity h -> par h r = None -> at_path h r p self -> surrounding boundary h r p pu ->
  exists anc, (forall fuel, S (List.length p) <= fuel -> ancestors fuel h self = Ok anc) /\
    let upto := find (fun a => boundary (cls h a)) anc in
    (upto = None /\ pu = []) \/ (exists u s, upto = Some u /\ at_path h r pu u /\ p = pu ++ s).
Proof.
  intros I RT A (IN & SU). destruct (awi_spec h r p self (S (List.length p)) I RT A ltac:(lia)) as (l & E1 & _ & _ & F). exists (map fst l). split.
  { intros fuel G. destruct (awi_spec h r p self fuel I RT A ltac:(lia)) as (l' & E2 & _ & _ & F'). rewrite E2. f_equal. clear - F F'. revert F'. generalize (map fst l'). induction F as [|q m ps ms AQ F IH]; intros ms' F'; inversion F'; subst; [reflexivity|].
    f_equal; [eapply at_path_det; eauto|now apply IH]. }
  cbv zeta. set (f := fun a => boundary (cls h a)). destruct (find f (map fst l)) as [u|] eqn:FD.
  - right. destruct (find_split _ _ _ FD) as (a & b & EL & FU & NA). rewrite EL in F. apply Forall2_app_inv_r in F as (qa & qb & FA & FB & EQ). inversion FB as [|q u' qb' b' AU FB']; subst u' qb b'.
    assert (ABq : above q p) by (apply ups_In; rewrite EQ; apply in_or_app; right; now left).
    assert (q = pu).
    { (* compare the two innermost boundaries *)
      destruct SU as [(AB & u2 & A2 & B2)|(-> & N)].
      - assert (Q2 : In pu (ups p)) by now apply ups_In. rewrite EQ in Q2. apply in_app_or in Q2 as [Q2|[Q2|Q2]]; [|exact Q2|].
        + destruct (Forall2_In_l _ _ _ _ FA Q2) as (m & M & AM). rewrite (at_path_det h r pu u2 m A2 AM) in B2. specialize (NA m M). unfold f in NA. congruence.
        + (* pu is above q *)
          assert (LT : above pu q).
          { destruct ABq as (x1 & r1 & E1'). destruct AB as (x2 & r2 & E2').
            assert (X : forall (w : list nat) k1 k2 z, ups w = k1 ++ z :: k2 -> k2 = ups z).
            { clear. intros w. induction w as [|i w IHw] using rev_ind; intros k1 k2 z E; [destruct k1; discriminate|].
              rewrite ups_snoc in E. destruct k1 as [|k k1]; cbn in E; injection E as <- E; [now symmetry|]. eapply IHw; exact E. }
            rewrite (X p qa qb' q EQ) in Q2. now apply ups_In. }
          unfold f in FU. rewrite (IN q u ABq LT AU) in FU. discriminate.
      - destruct q as [|i q]; [reflexivity|]. unfold f in FU. rewrite (IN (i :: q) u ABq) in FU; [discriminate| |exact AU]. now exists i, q. }
    subst q. destruct ABq as (x & s & ->). exists u, (x :: s). auto.
  - destruct SU as [(AB & u2 & A2 & B2)|(-> & N)]; [|now left]. exfalso.
    assert (Q2 : In pu (ups p)) by now apply ups_In. destruct (Forall2_In_l _ _ _ _ F Q2) as (m & M & AM). rewrite (at_path_det h r pu u2 m A2 AM) in B2.
    pose proof (find_none _ _ FD m M) as X. cbv beta in X. unfold f in X. congruence.
Qed.

Lemma below_listed h r x m : at_path h r x m -> x <> [] -> listed h m.
Proof.
  intros A N. destruct x as [|i x _] using rev_ind; [congruence|]. destruct (at_path_snoc h r x i m A) as (q & _ & E). exists q. now apply nth_error_In in E.
Qed.

(** What the search visits, and what it finds there. *)
Lemma search h r p pu self : integrity h -> par h r = None -> at_path h r p self -> surrounding boundary h r p pu ->
  exists ys,
    (if start (body h self) then visits h r before (fun x => left_of p x /\ exists s, x = pu ++ s) ys
     else visits h r mirror (fun x => left_of x p /\ exists s, x = pu ++ s) ys) /\
    forall limit, exists f0 o,
     (forall fuel, f0 <= fuel -> find_parallel boundary spanner_id start beq fuel h self limit = Ok o) /\
     first_of (fits h self) (if (limit =? 0)%nat then ys else firstn limit ys) o.
Proof.
  intros I RT A SU. destruct (upto_spec h r p self pu I RT A SU) as (anc & EA & UP). cbv zeta in UP. set (upto := find _ anc) in UP.
  assert (W : exists f1 ys, (forall fuel, f1 <= fuel -> (if start (body h self) then forward fuel h (fun _ => false) upto self else backward fuel h (fun _ => false) upto self) = Ok ys) /\
    (if start (body h self) then visits h r before (fun x => left_of p x /\ exists s, x = pu ++ s) ys
     else visits h r mirror (fun x => left_of x p /\ exists s, x = pu ++ s) ys)).
  { destruct (start (body h self)).
    - destruct (C39_forward h (fun _ => false) r p self upto pu I RT A UP) as (f1 & ys & E & V). exists f1, ys. split; [exact E|]. eapply visits_iff; [|exact V].
      intros x _. split; [tauto|]. intros [L S1]. split; [exact L|]. split; [exact S1|]. intros (q & m & _ & _ & _ & X). discriminate.
    - destruct (C39_backward h (fun _ => false) r p self upto pu I RT A UP) as (f1 & ys & E & V). exists f1, ys. split; [exact E|]. eapply visits_iff; [|exact V].
      intros x _. split; [tauto|]. intros [L S1]. split; [exact L|]. split; [exact S1|]. intros (q & m & _ & _ & _ & X). discriminate. }
  destruct W as (f1 & ys & EW & V). exists ys. split; [exact V|]. intros limit.
  assert (LI : forall y, In y ys -> listed h y).
  { intros y J. assert (X : exists x, (left_of p x \/ left_of x p) /\ at_path h r x y).
    { destruct (start (body h self)); apply (visits_In h r _ _ ys y I V) in J as (x & [L _] & AX); exists x; auto. }
    destruct X as (x & L & AX). apply (below_listed h r x y AX). intros ->. destruct L as [L|L]; [now apply left_of_nil_r in L|now apply left_of_nil_l in L]. }
  assert (ID : exists id, (if in_spanner_id spanner_id h self then left_sibling h self else Ok None) = Ok id /\ forall i, id = Some i <-> has_id spanner_id h self i).
  { destruct (in_spanner_id spanner_id h self) eqn:E.
    - apply id_spec; [exact I| |exact E]. apply (below_listed h r p self A). intros ->. inversion A; subst. unfold in_spanner_id in E. rewrite RT in E. discriminate.
    - exists None. split; [reflexivity|]. intros i. split; [discriminate|]. intros (s & k & S1 & _ & K). unfold in_spanner_id in E.
      rewrite (i_parent h I s self) in E by now apply nth_error_In in K. congruence. }
  destruct ID as (id & EI & ID). set (zs := if (limit =? 0)%nat then ys else firstn limit ys).
  assert (LZ : forall y, In y zs -> listed h y).
  { intros y J. apply LI. unfold zs in J. destruct (limit =? 0)%nat; [exact J|]. rewrite <- (firstn_skipn limit ys). apply in_or_app. now left. }
  destruct (first_spec h self id zs I LZ ID) as (f2 & o & EF & FO). exists (Nat.max (S (List.length p)) (Nat.max f1 f2)), o. split; [|exact FO].
  intros fuel G. unfold find_parallel. rewrite EA by lia. cbn [bindr]. fold upto. rewrite EW by lia. cbn [bindr]. rewrite EI. cbn [bindr]. apply EF. lia.
Qed.

(** Sorted by an order: what comes later in the list is greater. *)
Lemma visits_later h r ord P ys a m b y : integrity h -> visits h r ord P ys -> ys = a ++ m :: b -> In y b ->
  exists x x', at_path h r x m /\ at_path h r x' y /\ ord x x'.
Proof.
  intros I (ps & F & S1 & _) -> J. apply Forall2_app_inv_r in F as (pa & pb & _ & FB & ->). inversion FB as [|x m' pb' b' AX FB']; subst.
  destruct (Forall2_In_r _ _ _ _ FB' J) as (x' & J' & A'). exists x, x'. split; [exact AX|]. split; [exact A'|].
  clear - S1 J'. induction pa as [|z pa IH]; cbn in S1; inversion_clear S1 as [|? ? S2 F]; [|now apply IH]. rewrite Forall_forall in F. now apply F.
Qed.
End Proofs.

(** ** C85 *)

(** find_parallel() returns the nearest spanner of the same class, with the other head and the same id, that comes after a start (before
    a stop), within the innermost Assignment, New, Score or Document; and None if there is no such spanner. *)
Theorem C85_nearest : forall {B} boundary spanner_id (start : B -> bool) beq (h : heap B) r p pu self,
  integrity h -> par h r = None -> at_path h r p self -> surrounding boundary h r p pu ->
  let end_of := other_end spanner_id start beq h r p pu self in
  exists f0 o, (forall fuel, f0 <= fuel -> find_parallel boundary spanner_id start beq fuel h self 0 = Ok o) /\
    match o with
    | None => forall m x, ~ end_of m x
    | Some m => exists x, end_of m x /\
        forall m' x', end_of m' x' -> m' <> m -> if start (body h self) then before x x' else mirror x x'
    end.
Proof.
  intros B boundary spanner_id start beq h r p pu self I RT A SU end_of.
  destruct (search boundary spanner_id start beq h r p pu self I RT A SU) as (ys & V & F). destruct (F 0) as (f0 & o & E & FO). exists f0, o. split; [exact E|]. cbn [Nat.eqb] in FO.
  assert (EO : forall m x, end_of m x <-> at_path h r x m /\ In m ys /\ fits spanner_id start beq h self m).
  { intros m x. unfold end_of, other_end, fits. split.
    - intros (AX & W & D & C). split; [exact AX|]. split; [|exact C]. destruct (start (body h self)); apply (visits_In h r _ _ ys m I V); exists x; auto.
    - intros (AX & J & C). split; [exact AX|]. assert (X : (exists s, x = pu ++ s) /\ if start (body h self) then left_of p x else left_of x p).
      { destruct (start (body h self)); apply (visits_In h r _ _ ys m I V) in J as (x' & [D W] & AX'); rewrite (path_unique h r x x' m I RT AX AX'); auto. }
      tauto. }
  destruct o as [m|].
  - destruct FO as (a & b & EY & FM & NA).
    assert (J : In m ys) by (rewrite EY; apply in_or_app; right; now left).
    assert (X : exists x, at_path h r x m) by (destruct (start (body h self)); apply (visits_In h r _ _ ys m I V) in J as (x & _ & AX); now exists x).
    destruct X as (x & AX). exists x. split; [now apply EO|]. intros m' x' E' NE. apply EO in E' as (AX' & J' & F'). rewrite EY in J'. apply in_app_or in J' as [J'|[J'|J']]; [now apply NA in J'|congruence|].
    destruct (start (body h self)); destruct (visits_later h r _ _ ys a m b m' I V EY J') as (z & z' & AZ & AZ' & O);
      rewrite (path_unique h r x z m I RT AX AZ), (path_unique h r x' z' m' I RT AX' AZ'); exact O.
  - intros m x E'. apply EO in E' as (_ & J & FM). now apply FO in J.
Qed.
Print Assumptions C85_nearest.

(** With a limit: the same, but nothing is found if it is not among the first [limit] nodes that come after (before) the spanner. *)
Theorem C85_limit : forall {B} boundary spanner_id (start : B -> bool) beq (h : heap B) r p pu self,
  integrity h -> par h r = None -> at_path h r p self -> surrounding boundary h r p pu ->
  let region x := (if start (body h self) then left_of p x else left_of x p) /\ exists s, x = pu ++ s in
  exists ys, visits h r (if start (body h self) then before else mirror) region ys /\
  forall limit, 0 < limit -> exists f0 o, (forall fuel, f0 <= fuel -> find_parallel boundary spanner_id start beq fuel h self limit = Ok o /\
     exists o', find_parallel boundary spanner_id start beq fuel h self 0 = Ok o' /\
       o = match o' with Some m => if existsb (Nat.eqb m) (firstn limit ys) then Some m else None | None => None end).
Proof.
  intros B boundary spanner_id start beq h r p pu self I RT A SU region.
  destruct (search boundary spanner_id start beq h r p pu self I RT A SU) as (ys & V & F). exists ys. split; [unfold region; destruct (start (body h self)); exact V|].
  intros limit L. destruct (F 0) as (f0 & o' & E' & FO'). destruct (F limit) as (f1 & o & E & FO). exists (Nat.max f0 f1), o. intros fuel G. split; [apply E; lia|]. exists o'. split; [apply E'; lia|].
  cbn [Nat.eqb] in FO'. destruct (Nat.eqb_spec limit 0) as [Z|_]; [lia|]. clear E E' F G.
  assert (ND : NoDup ys) by (destruct (start (body h self)); eapply visits_NoDup; try exact V; try exact I; [exact before_irrefl|exact mirror_irrefl]).
  assert (SUB : forall y, In y (firstn limit ys) -> In y ys) by (intros y J; rewrite <- (firstn_skipn limit ys); apply in_or_app; now left).
  destruct o' as [m|]; cbn in FO'.
  - destruct FO' as (a & b & EY & FM & NA). destruct (existsb (Nat.eqb m) (firstn limit ys)) eqn:X.
    + apply existsb_exists in X as (m2 & J & EM). apply Nat.eqb_eq in EM. subst m2. destruct o as [m2|]; cbn in FO; [|now apply FO in J].
      destruct FO as (a2 & b2 & EY2 & FM2 & NA2). f_equal. assert (J2 : In m2 ys) by (apply SUB; rewrite EY2; apply in_or_app; right; now left).
      rewrite EY2 in J. apply in_app_or in J as [J|[J|J]]; [now apply NA2 in J|exact J|].
      (* m comes after m2, so m2 comes before m *)
      exfalso. destruct (in_split _ _ J) as (c & d & ->).
      assert (Q : a ++ m :: b = (a2 ++ m2 :: c) ++ m :: d ++ skipn limit ys).
      { rewrite <- EY. rewrite <- (firstn_skipn limit ys) at 1. rewrite EY2, <- !app_assoc. cbn [app]. now rewrite <- app_assoc. }
      assert (U : forall (a a' b b' : list nat), NoDup (a' ++ m :: b') -> a ++ m :: b = a' ++ m :: b' -> a = a').
      { clear. induction a as [|x a IH]; intros [|x' a'] b b' N E; cbn in E, N; [reflexivity| | |]; inversion N as [|? ? N1 N2]; injection E.
        - intros _ ->. elim N1. apply in_or_app. right; now left.
        - intros <- ->. elim N1. apply in_or_app. right; now left.
        - intros E2 ->. f_equal. exact (IH a' b b' N2 E2). }
      symmetry in Q. apply U in Q; [|now rewrite <- EY]. apply (NA m2); [|exact FM2]. rewrite <- Q. apply in_or_app. right. now left.
    + destruct o as [m2|]; [|reflexivity]. exfalso. destruct FO as (a2 & b2 & EY2 & FM2 & NA2). assert (J2 : In m2 (firstn limit ys)) by (rewrite EY2; apply in_or_app; right; now left).
      assert (NM : ~ In m (firstn limit ys)).
      { intros J. assert (Y : existsb (Nat.eqb m) (firstn limit ys) = true) by (apply existsb_exists; exists m; split; [exact J|apply Nat.eqb_refl]). congruence. }
      assert (LE : firstn limit ys = firstn limit a).
      { rewrite EY, firstn_app. destruct (limit - List.length a) as [|k] eqn:K; [cbn; now rewrite app_nil_r|]. exfalso. apply NM. rewrite EY, firstn_app, K. apply in_or_app. right. now left. }
      rewrite LE in J2. apply (NA m2); [|exact FM2]. rewrite <- (firstn_skipn limit a). apply in_or_app. now left.
  - destruct o as [m|]; [|reflexivity]. exfalso. destruct FO as (a & b & EY & FM & _). apply (FO' m); [|exact FM]. apply SUB. rewrite EY. apply in_or_app. right. now left.
Qed.
Print Assumptions C85_limit.

(** Both ends find each other, if they are in the same Assignment, New, Score or Document, and no other spanner like [self] is between
    them.  Spanners have no children, and a spanner in a SpannerId comes after its id. *)
Theorem C85_symmetric : forall {B} boundary spanner_id (start : B -> bool) beq (h : heap B) r p pu self m x,
  integrity h -> par h r = None -> at_path h r p self -> surrounding boundary h r p pu ->
  (forall a b, beq a b = true -> beq b a = true) ->
  (forall n, cls h n = cls h self -> kids h n = [] /\ (in_id spanner_id h n -> exists i, has_id spanner_id h n i)) ->
  (exists f0, forall fuel, f0 <= fuel -> find_parallel boundary spanner_id start beq fuel h self 0 = Ok (Some m)) ->
  at_path h r x m -> surrounding boundary h r x pu ->
  (forall n y, at_path h r y n -> cls h n = cls h self -> start (body h n) = start (body h self) -> same_id spanner_id beq h m n ->
     ~ (left_of p y /\ left_of y x) /\ ~ (left_of x y /\ left_of y p)) ->
  exists f0, forall fuel, f0 <= fuel -> find_parallel boundary spanner_id start beq fuel h m 0 = Ok (Some self).
Proof.
  intros B boundary spanner_id start beq h r p pu self m x I RT A SU SY WF (f1 & FP) AX SX NB.
  destruct (C85_nearest boundary spanner_id start beq h r p pu self I RT A SU) as (f0 & o & E & FO).
  assert (o = Some m) by (specialize (E (Nat.max f0 f1) ltac:(lia)); rewrite FP in E by lia; congruence). subst o. clear E FP f0 f1.
  destruct FO as (x' & (AX' & W & D & C & ST & ID) & _). assert (x' = x) by (eapply path_unique; eauto). subst x'. clear AX'.
  destruct (C85_nearest boundary spanner_id start beq h r x pu m I RT AX SX) as (f0 & o & E & FO). exists f0. intros fuel L. rewrite E by exact L. f_equal. clear E L.
  assert (IDS : same_id spanner_id beq h m self).
  { destruct ID as [(i & j & H1 & H2 & AL)|[N1 N2]].
    - left. exists j, i. split; [exact H2|]. split; [exact H1|]. destruct AL as [V R]. split; [intros q; symmetry; apply V|]. intros q a b AA AB. destruct (R q b a AB AA) as [R1 R2]. split; [congruence|now apply SY].
    - right. split; [intros i (s & k & S1 & _ & K); apply N2; exists s; split; [exact S1|now apply nth_error_In in K]|].
      intros J. destruct (proj2 (WF self eq_refl) J) as [i HI]. now apply N1 in HI. }
  assert (WS : exists s, p = pu ++ s).
  { destruct SU as (_ & [((y & s & ->) & _)|(-> & _)]); [now exists (y :: s)|now exists p]. }
  assert (ME : other_end spanner_id start beq h r x pu m self p).
  { split; [exact A|]. split; [exact WS|]. split; [|split; [congruence|split; [congruence|exact IDS]]]. destruct (start (body h self)), (start (body h m)); try congruence; exact D. }
  destruct o as [m2|]; [|now apply FO in ME]. destruct FO as (y & (AY & WY & DY & CY & SY' & IDY) & FAR). destruct (Nat.eq_dec m2 self) as [->|NE]; [reflexivity|]. exfalso.
  specialize (FAR self p ME ltac:(congruence)).
  assert (SE : start (body h m2) = start (body h self)) by (destruct (start (body h m2)), (start (body h m)), (start (body h self)); congruence).
  destruct (NB m2 y AY ltac:(congruence) SE IDY) as [N1 N2].
  assert (NA : ~ above y p).
  { intros (k & s & ->). destruct (at_path_split h r y (k :: s) self A) as (m3 & A3 & A4). assert (m3 = m2) by (eapply at_path_det; eauto). subst m3.
    inversion A4 as [|? ? c ? ? KE]; subst. destruct (WF m2 ltac:(congruence)) as [K _]. rewrite K in KE. destruct k; discriminate. }
  destruct (start (body h self)) eqn:SS, (start (body h m)) eqn:SM; try congruence.
  - destruct FAR as [FAR|FAR]; [contradiction|]. apply N1. auto.
  - destruct FAR as [FAR|FAR]; [contradiction|]. apply N2. auto.
Qed.
Print Assumptions C85_symmetric.

(** *** A concrete document.  Classes: 0 music, 1 Document, 2 New, 3 Slur, 4 SpannerId, 5 Int; a Slur with 1 is a start.
    { ( \=1( \=2) \=1) ) ( \new { ) } } *)
Definition sl_edits : list (edit nat) :=
  [New 3 1 []; New 5 1 []; New 3 1 []; New 4 0 [1; 2]; New 5 2 []; New 3 0 []; New 4 0 [4; 5]; New 5 1 []; New 3 0 []; New 4 0 [7; 8];
   New 3 0 []; New 3 1 []; New 3 0 []; New 0 0 [12]; New 2 0 [13]; New 0 0 [0; 3; 6; 9; 10; 11; 14]; New 1 0 [15]].
Definition sl : heap nat := performs (empty_heap 0) sl_edits.
Definition sl_find (n limit : nat) := find_parallel (fun c => (c =? 1) || (c =? 2)) (Nat.eqb 4) (Nat.eqb 1) Nat.eqb 20 sl n limit.

Lemma sl_integrity : integrity sl.
Proof.
  apply C36_preserved; [apply empty_integrity|]. unfold sl_edits. assert (I := empty_integrity 0). steps I.
  all: try exact Logic.I.
  all: (split; [repeat constructor; cbn; lia|]); intros n J; apply detached_dec; [exact I|]; cbn in J; repeat (destruct J as [<-|J]; [reflexivity|]); destruct J.
Qed.

(** The ends find each other; the limit; and the slur 2 has no start. *)
Example C85_witness : integrity sl /\ par sl 16 = None /\ at_path sl 16 [0; 0] 0 /\ at_path sl 16 [0; 4] 10 /\
  surrounding (fun c => (c =? 1) || (c =? 2)) sl 16 [0; 0] [] /\ surrounding (fun c => (c =? 1) || (c =? 2)) sl 16 [0; 4] [] /\
  sl_find 0 0 = Ok (Some 10) /\ sl_find 10 0 = Ok (Some 0) /\ sl_find 0 9 = Ok None /\ sl_find 0 10 = Ok (Some 10) /\
  sl_find 2 0 = Ok (Some 8) /\ sl_find 8 0 = Ok (Some 2) /\ sl_find 5 0 = Ok None.
Proof.
  split; [apply sl_integrity|]. split; [reflexivity|]. split; [at_ex|]. split; [at_ex|].
  assert (X : forall j, surrounding (fun c => (c =? 1) || (c =? 2)) sl 16 [0; j] []).
  { intros j. split.
    - intros q u (x1 & r1 & E1) (x2 & r2 & ->) AU. destruct r2 as [|y r2]; [|destruct r2; discriminate]. cbn in E1. injection E1 as <- E1.
      inversion AU as [|? ? c ? ? E A2]; subst. cbn in E. injection E as <-. inversion A2; subst. reflexivity.
    - left. split; [now exists 0, [j]|]. exists 16. split; [constructor|reflexivity]. }
  split; [apply X|]. split; [apply X|]. repeat split.
Qed.

(** A start outside \new finds a stop inside it, which does not find the start. *)
Theorem C85_nested_finding : sl_find 11 0 = Ok (Some 12) /\ sl_find 12 0 = Ok None.
Proof. split; reflexivity. Qed.
Print Assumptions C85_nested_finding.
