(** Property C86: the attributes of notes, pitches and pitched rests. *)
From Coq Require Import String Ascii List ZArith Bool Lia ZifyBool ZifyNat.
From Verif Require Import Base Pitch_Model Build_Model Build_Spec Build_Proofs Build_Props Attrs_Model Attrs_Spec.
Import ListNotations.
Open Scope Z_scope.

(** The class tests and the places. *)
Lemma is_octave_place k : is_octave k = Nat.eqb (place k) 0. Proof. now destruct k as [| | |[]]. Qed.
Lemma is_accidental_place k : is_accidental k = Nat.eqb (place k) 1. Proof. now destruct k as [| | |[]]. Qed.
Lemma is_octcheck_place k : is_octcheck k = Nat.eqb (place k) 2. Proof. now destruct k as [| | |[]]. Qed.

Section First.
Variable is : kid -> bool.
Variable n : nat.
Hypothesis IS : forall k, is k = Nat.eqb (place k) n.

Lemma on_first_none f kids : on_first is f kids = None <-> of_kind n kids = [].
Proof.
  unfold of_kind. induction kids as [|k r IH]; [cbn; tauto|]. cbn [on_first filter]. rewrite IS. destruct (Nat.eqb (place k) n); [split; discriminate|].
  rewrite <- IH. destruct (on_first is f r); cbn; split; discriminate || auto.
Qed.
Lemma on_first_some f kids l : on_first is f kids = Some l -> exists a k b, kids = a ++ k :: b /\ place k = n /\ of_kind n a = [] /\ l = a ++ f k ++ b.
Proof.
  revert l. induction kids as [|k r IH]; intros l E; [discriminate|]. cbn [on_first] in E. rewrite IS in E. destruct (Nat.eqb_spec (place k) n) as [P|P].
  - injection E as <-. exists [], k, r. auto.
  - destruct (on_first is f r) as [l'|]; [|discriminate]. injection E as <-. destruct (IH l' eq_refl) as (a & k' & b & -> & P' & N & ->).
    exists (k :: a), k', b. repeat split; auto. unfold of_kind in *. cbn [filter]. apply Nat.eqb_neq in P. now rewrite P.
Qed.
Lemma find_first a k b : of_kind n a = [] -> place k = n -> find is (a ++ k :: b) = Some k.
Proof.
  intros N P. induction a as [|x a IH]; cbn [app find]; rewrite IS; [now rewrite P, Nat.eqb_refl|]. unfold of_kind in *. cbn [filter] in N. destruct (Nat.eqb (place x) n); [discriminate|]. now apply IH.
Qed.
Lemma find_none_kind kids : of_kind n kids = [] -> find is kids = None.
Proof. unfold of_kind. induction kids as [|x l IH]; [reflexivity|]. cbn [filter find]. rewrite IS. destruct (Nat.eqb (place x) n); [discriminate|exact IH]. Qed.
End First.

Lemma of_kind_app n a b : of_kind n (a ++ b) = of_kind n a ++ of_kind n b. Proof. apply filter_app. Qed.
Lemma not_of_kind_app n a b : not_of_kind n (a ++ b) = not_of_kind n a ++ not_of_kind n b. Proof. apply filter_app. Qed.
Lemma not_of_kind_one n k : place k = n -> not_of_kind n [k] = []. Proof. intros <-. unfold not_of_kind. cbn. now rewrite Nat.eqb_refl. Qed.
Lemma of_kind_one n k : place k = n -> of_kind n [k] = [k]. Proof. intros <-. unfold of_kind. cbn. now rewrite Nat.eqb_refl. Qed.
Lemma of_kind_other n k : place k <> n -> of_kind n [k] = []. Proof. intros H. unfold of_kind. cbn. apply Nat.eqb_neq in H. now rewrite H. Qed.
Lemma not_of_kind_other n k : place k <> n -> not_of_kind n [k] = [k]. Proof. intros H. unfold not_of_kind. cbn. apply Nat.eqb_neq in H. now rewrite H. Qed.

Lemma added p k kids : exists a b, kids = a ++ b /\ add_kid p k kids = a ++ k :: b.
Proof. destruct (C53_inserted kid [child_order p] k kids) as (a & b & E1 & E2). exists a, b. split; [exact E1|exact E2]. Qed.

Lemma rank_place p a b : allowed p a -> allowed p b -> ((rank (child_order p) a <= rank (child_order p) b)%nat <-> (place a <= place b)%nat).
Proof. destruct p; destruct a as [| | |[]], b as [| | |[]]; cbn; try tauto; try discriminate; try lia. all: intros; lia. Qed.

Lemma in_order_iff p kids : Forall (allowed p) kids -> (in_order kids <-> in_child_order (child_order p) kids).
Proof.
  intros F. split; intros O l1 a l2 b l3 E; pose proof (O l1 a l2 b l3 E) as X; subst kids; apply Forall_app in F as [_ F]; inversion_clear F as [|? ? A F2]; apply Forall_app in F2 as [_ F2]; inversion_clear F2 as [|? ? C _].
  all: now apply (rank_place p a b A C).
Qed.
Lemma add_in_order p k kids : Forall (allowed p) (k :: kids) -> in_order kids -> in_order (add_kid p k kids).
Proof.
  intros F O. inversion_clear F as [|? ? A F2]. destruct (C53_add kid (child_order p) k kids) as [O2 _]; [now apply (in_order_iff p)|]. apply (in_order_iff p); [|exact O2].
  destruct (added p k kids) as (a & b & -> & ->). apply Forall_app in F2 as [F3 F4]. apply Forall_app. split; [exact F3|now constructor].
Qed.
Lemma replace_in_order a k k' b : place k' = place k -> in_order (a ++ k :: b) -> in_order (a ++ k' :: b).
Proof.
  intros P. assert (X : forall l, in_order l <-> (forall l1 x l2 y l3, map place l = l1 ++ x :: l2 ++ y :: l3 -> (x <= y)%nat)).
  { intros l. split.
    - intros O l1 x l2 y l3 E. apply map_eq_app in E as (m1 & m2 & -> & E1 & E2). destruct m2 as [|u m2]; [discriminate|]. cbn in E2. injection E2 as <- E2.
      apply map_eq_app in E2 as (m3 & m4 & -> & E3 & E4). destruct m4 as [|v m4]; [discriminate|]. cbn in E4. injection E4 as <- E4. now apply (O m1 u m3 v m4).
    - intros O l1 x l2 y l3 ->. apply (O (map place l1) (place x) (map place l2) (place y) (map place l3)). rewrite map_app. cbn. now rewrite map_app. }
  rewrite !X. rewrite !map_app. cbn [map]. now rewrite P.
Qed.
Lemma remove_in_order a k b : in_order (a ++ k :: b) -> in_order (a ++ b).
Proof.
  intros O l1 x l2 y l3 E.
  assert (G : exists m1 m2 m3, a ++ k :: b = m1 ++ x :: m2 ++ y :: m3); [|destruct G as (m1 & m2 & m3 & G); now apply (O m1 x m2 y m3)].
  clear O. revert l1 E. induction a as [|z a IH]; intros l1 E; cbn in E |- *; [subst b; exists (k :: l1), l2, l3; reflexivity|].
  destruct l1 as [|w l1]; cbn in E; injection E as -> E.
  - clear IH. revert l2 E. induction a as [|z a IH]; intros l2 E; cbn in E |- *; [subst b; exists [], (k :: l2), l3; reflexivity|].
    destruct l2 as [|v l2]; cbn in E; injection E as -> E; [exists [], [], (a ++ k :: b); reflexivity|].
    destruct (IH l2 E) as (m1 & m2 & m3 & G). destruct m1 as [|m m1]; cbn in G; [injection G as G|injection G as G1 G].
    + exists [], (v :: m2), m3. cbn. now rewrite G.
    + subst m. exists (x :: v :: m1), m2, m3. cbn. now rewrite G.
  - destruct (IH l1 E) as (m1 & m2 & m3 & G). exists (w :: m1), m2, m3. cbn. now rewrite G.
Qed.
Lemma filter_in_order f kids : in_order kids -> in_order (filter f kids).
Proof.
  assert (X : forall a b, in_order (a ++ b) -> in_order (a ++ filter f b)).
  { intros a b. revert a. induction b as [|k b IH]; intros a O; [exact O|]. cbn [filter]. destruct (f k).
    - change (a ++ k :: filter f b) with (a ++ [k] ++ filter f b). rewrite app_assoc. apply IH. now rewrite <- app_assoc.
    - apply IH. now apply remove_in_order in O. }
  apply (X []).
Qed.

(** ** C86 *)

(** Setting the octave: that is the octave then; no other child is changed, added or removed, and the children stay in order. *)
Theorem C86_octave : forall p num kids,
  get_octave (set_octave p num kids) = num /\ not_of_kind 0 (set_octave p num kids) = not_of_kind 0 kids /\
  (List.length (of_kind 0 kids) <= 1 -> List.length (of_kind 0 (set_octave p num kids)) <= 1)%nat /\
  (Forall (allowed p) kids -> in_order kids -> in_order (set_octave p num kids)).
Proof.
  intros p num kids. unfold set_octave, get_octave. destruct (on_first is_octave _ kids) as [l|] eqn:E.
  - destruct (on_first_some _ 0%nat is_octave_place _ _ _ E) as (a & k & b & -> & P & N & ->). cbn [app].
    rewrite (find_first _ 0%nat is_octave_place a (Octave num) b N eq_refl). split; [reflexivity|].
    change (k :: b) with ([k] ++ b). change (Octave num :: b) with ([Octave num] ++ b). split; [|split].
    + rewrite !not_of_kind_app. now rewrite (not_of_kind_one 0 k P).
    + rewrite !of_kind_app. rewrite (of_kind_one 0 k P), !app_length. cbn. lia.
    + intros _. apply replace_in_order. now rewrite P.
  - apply (on_first_none _ 0%nat is_octave_place) in E. destruct (Z.eqb_spec num 0) as [->|NZ]; cbn [negb].
    + rewrite (find_none_kind _ 0%nat is_octave_place kids E). auto.
    + destruct (added p (Octave num) kids) as (a & b & EK & EA). split; [|split; [|split]].
      * rewrite EA. rewrite (find_first _ 0%nat is_octave_place a (Octave num) b); [reflexivity| |reflexivity]. rewrite EK, of_kind_app in E. now apply app_eq_nil in E.
      * rewrite EA, EK, !not_of_kind_app. reflexivity.
      * intros _. rewrite EA. rewrite EK in E. rewrite of_kind_app in E. apply app_eq_nil in E as [E1 E2]. rewrite of_kind_app, E1. cbn. unfold of_kind in E2. rewrite E2. cbn. lia.
      * intros F. apply add_in_order. constructor; [now destruct p|exact F].
Qed.
Print Assumptions C86_octave.

(** Deleting it: the octave is 0, and there is no Octave child anymore. *)
Theorem C86_del_octave : forall kids,
  get_octave (del_octave kids) = 0 /\ del_octave kids = not_of_kind 0 kids /\ of_kind 0 (del_octave kids) = [] /\ (in_order kids -> in_order (del_octave kids)).
Proof.
  intros kids. assert (E : del_octave kids = not_of_kind 0 kids) by (unfold del_octave, not_of_kind; apply filter_ext; intros k; now rewrite is_octave_place).
  assert (N : of_kind 0 (del_octave kids) = []). { rewrite E. unfold of_kind, not_of_kind. induction kids as [|k l IH]; [reflexivity|]. cbn. destruct (Nat.eqb (place k) 0) eqn:P; cbn; [|rewrite P]; apply IH; unfold del_octave, not_of_kind; apply filter_ext; intros; now rewrite is_octave_place. }
  split; [unfold get_octave; now rewrite (find_none_kind _ 0%nat is_octave_place _ N)|]. split; [exact E|]. split; [exact N|]. apply filter_in_order.
Qed.
Print Assumptions C86_del_octave.

(** Setting the octave to 0 does not remove an Octave child (the documentation says it does), it gets the head 0. *)
Theorem C86_octave_zero_finding : forall p z r, set_octave p 0 (Octave z :: r) = Octave 0 :: r.
Proof. reflexivity. Qed.
Print Assumptions C86_octave_zero_finding.

(** The accidental; there is at most one.
    Missing for the full claim: more than one accidental (C86_two_finding). *)
Theorem C86_accidental_partial : forall p v kids, (List.length (of_kind 1 kids) <= 1)%nat ->
  get_accidental (set_accidental p v kids) = v /\ not_of_kind 1 (set_accidental p v kids) = not_of_kind 1 kids /\
  (List.length (of_kind 1 (set_accidental p v kids)) = match v with Some _ => 1 | None => 0 end)%nat /\
  (Forall (allowed p) kids -> in_order kids -> in_order (set_accidental p v kids)).
Proof.
  intros p v kids ONE. unfold set_accidental, get_accidental. destruct (on_first is_accidental _ kids) as [l|] eqn:E.
  - destruct (on_first_some _ 1%nat is_accidental_place _ _ _ E) as (a & k & b & -> & P & N & ->).
    change (k :: b) with ([k] ++ b) in *. rewrite !of_kind_app, (of_kind_one 1 k P), N in ONE. cbn [app List.length] in ONE. assert (NB : of_kind 1 b = []) by (destruct (of_kind 1 b); [reflexivity|cbn in ONE; lia]).
    destruct v as [v|].
    + change ([Accidental v] ++ b) with (Accidental v :: b). rewrite (find_first _ 1%nat is_accidental_place a (Accidental v) b N eq_refl). split; [reflexivity|].
      change (Accidental v :: b) with ([Accidental v] ++ b). split; [|split].
      * rewrite !not_of_kind_app. now rewrite (not_of_kind_one 1 k P).
      * rewrite !of_kind_app, N, NB. reflexivity.
      * intros _. apply replace_in_order. now rewrite P.
    + cbn [app]. assert (NN : of_kind 1 (a ++ b) = []) by (now rewrite of_kind_app, N, NB). rewrite (find_none_kind _ 1%nat is_accidental_place _ NN). split; [reflexivity|]. split; [|split].
      * change (k :: b) with ([k] ++ b). rewrite !not_of_kind_app. now rewrite (not_of_kind_one 1 k P).
      * now rewrite NN.
      * intros _. apply remove_in_order.
  - apply (on_first_none _ 1%nat is_accidental_place) in E. destruct v as [v|].
    + destruct (added p (Accidental v) kids) as (a & b & EK & EA). rewrite EK, of_kind_app in E. apply app_eq_nil in E as [E1 E2]. split; [|split; [|split]].
      * rewrite EA. now rewrite (find_first _ 1%nat is_accidental_place a (Accidental v) b).
      * rewrite EA, EK, !not_of_kind_app. reflexivity.
      * rewrite EA. change (Accidental v :: b) with ([Accidental v] ++ b). rewrite !of_kind_app, E1, E2. reflexivity.
      * intros F. apply add_in_order. constructor; [now destruct p|exact F].
    + rewrite (find_none_kind _ 1%nat is_accidental_place kids E). rewrite E. auto.
Qed.
Print Assumptions C86_accidental_partial.

(** The octave check; there is at most one.
    Missing for the full claim: more than one octave check. *)
Theorem C86_octcheck_partial : forall p v kids, (List.length (of_kind 2 kids) <= 1)%nat ->
  get_octcheck (set_octcheck p v kids) = v /\ not_of_kind 2 (set_octcheck p v kids) = not_of_kind 2 kids /\
  (List.length (of_kind 2 (set_octcheck p v kids)) = match v with Some _ => 1 | None => 0 end)%nat /\
  (Forall (allowed p) kids -> in_order kids -> in_order (set_octcheck p v kids)).
Proof.
  intros p v kids ONE. unfold set_octcheck, get_octcheck. destruct (on_first is_octcheck _ kids) as [l|] eqn:E.
  - destruct (on_first_some _ 2%nat is_octcheck_place _ _ _ E) as (a & k & b & -> & P & N & ->).
    change (k :: b) with ([k] ++ b) in *. rewrite !of_kind_app, (of_kind_one 2 k P), N in ONE. cbn [app List.length] in ONE. assert (NB : of_kind 2 b = []) by (destruct (of_kind 2 b); [reflexivity|cbn in ONE; lia]).
    destruct v as [v|].
    + change ([OctCheck v] ++ b) with (OctCheck v :: b). rewrite (find_first _ 2%nat is_octcheck_place a (OctCheck v) b N eq_refl). split; [reflexivity|].
      change (OctCheck v :: b) with ([OctCheck v] ++ b). split; [|split].
      * rewrite !not_of_kind_app. now rewrite (not_of_kind_one 2 k P).
      * rewrite !of_kind_app, N, NB. reflexivity.
      * intros _. apply replace_in_order. now rewrite P.
    + cbn [app]. assert (NN : of_kind 2 (a ++ b) = []) by (now rewrite of_kind_app, N, NB). rewrite (find_none_kind _ 2%nat is_octcheck_place _ NN). split; [reflexivity|]. split; [|split].
      * change (k :: b) with ([k] ++ b). rewrite !not_of_kind_app. now rewrite (not_of_kind_one 2 k P).
      * now rewrite NN.
      * intros _. apply remove_in_order.
  - apply (on_first_none _ 2%nat is_octcheck_place) in E. destruct v as [v|].
    + destruct (added p (OctCheck v) kids) as (a & b & EK & EA). rewrite EK, of_kind_app in E. apply app_eq_nil in E as [E1 E2]. split; [|split; [|split]].
      * rewrite EA. now rewrite (find_first _ 2%nat is_octcheck_place a (OctCheck v) b).
      * rewrite EA, EK, !not_of_kind_app. reflexivity.
      * rewrite EA. change (OctCheck v :: b) with ([OctCheck v] ++ b). rewrite !of_kind_app, E1, E2. reflexivity.
      * intros F. apply add_in_order. constructor; [now destruct p|exact F].
    + rewrite (find_none_kind _ 2%nat is_octcheck_place kids E). rewrite E. auto.
Qed.
Print Assumptions C86_octcheck_partial.

(** Deleting removes every child of the kind, and no other. *)
Theorem C86_delete : forall kids,
  get_accidental (del_accidental kids) = None /\ del_accidental kids = not_of_kind 1 kids /\ (in_order kids -> in_order (del_accidental kids)) /\
  get_octcheck (del_octcheck kids) = None /\ del_octcheck kids = not_of_kind 2 kids /\ (in_order kids -> in_order (del_octcheck kids)).
Proof.
  intros kids. assert (X : forall is n, (forall k, is k = Nat.eqb (place k) n) -> filter (fun k => negb (is k)) kids = not_of_kind n kids /\ of_kind n (filter (fun k => negb (is k)) kids) = []).
  { intros is n IS. assert (E : filter (fun k => negb (is k)) kids = not_of_kind n kids) by (unfold not_of_kind; apply filter_ext; intros k; now rewrite IS).
    split; [exact E|]. rewrite E. clear. unfold of_kind, not_of_kind. induction kids as [|k l IH]; [reflexivity|]. cbn. destruct (Nat.eqb (place k) n) eqn:P; cbn; [|rewrite P]; exact IH. }
  destruct (X _ 1%nat is_accidental_place) as [A1 A2]. destruct (X _ 2%nat is_octcheck_place) as [C1 C2].
  split; [unfold get_accidental, del_accidental; now rewrite (find_none_kind _ 1%nat is_accidental_place _ A2)|]. split; [exact A1|]. split; [apply filter_in_order|].
  split; [unfold get_octcheck, del_octcheck; now rewrite (find_none_kind _ 2%nat is_octcheck_place _ C2)|]. split; [exact C1|apply filter_in_order].
Qed.
Print Assumptions C86_delete.

(** With two accidentals, None removes only the first. *)
Theorem C86_two_finding : forall p a b r, get_accidental (set_accidental p None (Accidental a :: Accidental b :: r)) = Some b.
Proof. reflexivity. Qed.
Print Assumptions C86_two_finding.

(** The attributes do not influence each other. *)
Lemma get_other n m kids kids' : not_of_kind n kids = not_of_kind n kids' -> n <> m -> of_kind m kids = of_kind m kids'.
Proof.
  intros E NE. assert (X : forall l, of_kind m l = of_kind m (not_of_kind n l)).
  { unfold of_kind, not_of_kind. induction l as [|k l IH]; [reflexivity|]. cbn. destruct (Nat.eqb_spec (place k) n) as [P|P]; cbn.
    - destruct (Nat.eqb_spec (place k) m); [congruence|exact IH].
    - destruct (Nat.eqb (place k) m); [now f_equal|exact IH]. }
  now rewrite X, E, <- X.
Qed.
Lemma find_of_kind is n kids : (forall k, is k = Nat.eqb (place k) n) -> find is kids = hd_error (of_kind n kids).
Proof. intros IS. unfold of_kind. induction kids as [|k l IH]; [reflexivity|]. cbn [find filter]. rewrite IS. destruct (Nat.eqb (place k) n); [reflexivity|exact IH]. Qed.
Lemma gets kids : get_octave kids = match of_kind 0 kids with Octave z :: _ => z | _ => 0 end /\
  get_accidental kids = match of_kind 1 kids with Accidental a :: _ => Some a | _ => None end /\
  get_octcheck kids = match of_kind 2 kids with OctCheck z :: _ => Some z | _ => None end.
Proof.
  unfold get_octave, get_accidental, get_octcheck. rewrite (find_of_kind _ 0 kids is_octave_place), (find_of_kind _ 1 kids is_accidental_place), (find_of_kind _ 2 kids is_octcheck_place).
  split; [|split]; destruct (of_kind _ kids) as [|[] ]; reflexivity.
Qed.
(** Missing for the full claim: more than one accidental or octave check. *)
Theorem C86_independent_partial : forall p kids z a c, (List.length (of_kind 1 kids) <= 1)%nat -> (List.length (of_kind 2 kids) <= 1)%nat ->
  (get_accidental (set_octave p z kids) = get_accidental kids /\ get_octcheck (set_octave p z kids) = get_octcheck kids) /\
  (get_octave (set_accidental p a kids) = get_octave kids /\ get_octcheck (set_accidental p a kids) = get_octcheck kids) /\
  (get_octave (set_octcheck p c kids) = get_octave kids /\ get_accidental (set_octcheck p c kids) = get_accidental kids).
Proof.
  intros p kids z a c O1 O2. destruct (C86_octave p z kids) as (_ & N0 & _). destruct (C86_accidental_partial p a kids O1) as (_ & N1 & _). destruct (C86_octcheck_partial p c kids O2) as (_ & N2 & _).
  destruct (gets kids) as (G0 & G1 & G2). rewrite G0, G1, G2.
  rewrite (proj1 (proj2 (gets (set_octave p z kids)))), (proj2 (proj2 (gets (set_octave p z kids)))), (proj1 (gets (set_accidental p a kids))), (proj2 (proj2 (gets (set_accidental p a kids)))),
    (proj1 (gets (set_octcheck p c kids))), (proj1 (proj2 (gets (set_octcheck p c kids)))).
  rewrite (get_other 0 1 _ _ N0), (get_other 0 2 _ _ N0), (get_other 1 0 _ _ N1), (get_other 1 2 _ _ N1), (get_other 2 0 _ _ N2), (get_other 2 1 _ _ N2) by discriminate. auto.
Qed.
Print Assumptions C86_independent_partial.

(** What is written: name, octave, accidental, octave check, and then the other children.
    Missing for the full claim: more than one octave, accidental or octave check. *)
Theorem C86_written_partial : forall p others head kids, Forall (allowed p) kids -> in_order kids ->
  (forall n, (n < 3)%nat -> (List.length (of_kind n kids) <= 1)%nat) ->
  write_pitchable others head kids =
    head ++ octave_text (get_octave kids) ++
    match get_accidental kids with Some Cautionary => txt "?" | Some Forced => txt "!" | None => [] end ++
    match get_octcheck kids with Some z => txt "=" ++ octave_text z | None => [] end ++
    flat_map (fun k => match k with Other c id => others c id | _ => [] end) kids.
Proof.
  intros p others head kids _ O ONE. unfold write_pitchable. f_equal. destruct (gets kids) as (-> & -> & ->).
  assert (OT : forall z, octave_to_string z = octave_text z).
  { intros z. unfold octave_to_string, octave_text. destruct (Z.ltb_spec z 0); [now rewrite (Z2Nat.inj_neg (Z.to_pos (-z))) || (replace (Z.to_nat z) with 0%nat by lia)|]. replace (Z.to_nat (- z)) with 0%nat by lia. now rewrite app_nil_r. }
  (* the list is its four parts *)
  assert (SP : kids = of_kind 0 kids ++ of_kind 1 kids ++ of_kind 2 kids ++ filter (fun k => (2 <? place k)%nat) kids).
  { clear - O. unfold of_kind. induction kids as [|k l IH]; [reflexivity|].
    assert (O2 : in_order l) by (intros l1 a l2 b l3 ->; apply (O (k :: l1) a l2 b l3); reflexivity).
    assert (F : forall b, In b l -> (place k <= place b)%nat). { intros b J. destruct (in_split _ _ J) as (l2 & l3 & ->). now apply (O [] k l2 b l3). }
    assert (NO : forall n, (n < place k)%nat -> filter (fun b => Nat.eqb (place b) n) l = []).
    { intros n L. destruct (filter (fun b => Nat.eqb (place b) n) l) as [|b r] eqn:E; [reflexivity|]. assert (J : In b (filter (fun b => Nat.eqb (place b) n) l)) by (rewrite E; now left). apply filter_In in J as [J P]. apply Nat.eqb_eq in P. specialize (F b J). lia. }
    specialize (IH O2). cbn [filter]. destruct (place k) as [|[|[|n]]] eqn:PK; cbn [Nat.eqb Nat.ltb Nat.leb app].
    - f_equal. exact IH.
    - rewrite (NO 0%nat) in * by lia. cbn [app] in *. now f_equal.
    - rewrite (NO 0%nat), (NO 1%nat) in * by lia. cbn [app] in *. now f_equal.
    - rewrite (NO 0%nat), (NO 1%nat), (NO 2%nat) in * by lia. cbn [app] in *. now f_equal. }
  assert (W : forall k, write_kid others k = match k with Octave z => octave_text z | Accidental Cautionary => txt "?" | Accidental Forced => txt "!" | OctCheck z => txt "=" ++ octave_text z | Other c id => others c id end).
  { intros [z|[]|z|]; cbn [write_kid]; rewrite ?OT; reflexivity. }
  assert (RS : flat_map (write_kid others) (filter (fun k => (2 <? place k)%nat) kids) = flat_map (fun k => match k with Other c id => others c id | _ => [] end) kids).
  { clear. induction kids as [|k l IH]; [reflexivity|]. cbn [filter flat_map]. rewrite <- IH. destruct k as [| | |[]]; reflexivity. }
  assert (KD : forall n k r, of_kind n kids = k :: r -> place k = n).
  { intros n k r E. assert (J : In k (of_kind n kids)) by (rewrite E; now left). apply filter_In in J as [_ J]. now apply Nat.eqb_eq. }
  rewrite SP at 1. rewrite !flat_map_app, RS. rewrite !app_assoc. f_equal.
  pose proof (ONE 0%nat ltac:(lia)) as L0. pose proof (ONE 1%nat ltac:(lia)) as L1. pose proof (ONE 2%nat ltac:(lia)) as L2.
  pose proof (KD 0%nat) as K0. pose proof (KD 1%nat) as K1. pose proof (KD 2%nat) as K2.
  rewrite <- !app_assoc. f_equal; [|f_equal].
  - destruct (of_kind 0 kids) as [|k [|? ?]]; [reflexivity| |cbn in L0; lia]. specialize (K0 k [] eq_refl). destruct k as [z| | |[]]; try discriminate. cbn [flat_map]. now rewrite W, app_nil_r.
  - destruct (of_kind 1 kids) as [|k [|? ?]]; [reflexivity| |cbn in L1; lia]. specialize (K1 k [] eq_refl). destruct k as [|a| |[]]; try discriminate. cbn [flat_map]. rewrite W, app_nil_r. reflexivity.
  - destruct (of_kind 2 kids) as [|k [|? ?]]; [reflexivity| |cbn in L2; lia]. specialize (K2 k [] eq_refl). destruct k as [| |z|[]]; try discriminate. cbn [flat_map]. now rewrite W, app_nil_r.
Qed.
Print Assumptions C86_written_partial.

Example C86_witness :
  let kids := [Accidental Forced; Other CDuration 7; Other CComment 8] in
  (Forall (allowed Note) kids /\ in_order kids /\ forall n, (n < 3)%nat -> (List.length (of_kind n kids) <= 1)%nat) /\
  set_octcheck Note (Some 1) (set_octave Note (-2) kids) = [Octave (-2); Accidental Forced; OctCheck 1; Other CDuration 7; Other CComment 8] /\
  set_accidental Note None kids = [Other CDuration 7; Other CComment 8] /\
  write_pitchable (fun _ _ => txt "4") (txt "cis") [Octave (-2); Accidental Forced; OctCheck 1; Other CDuration 7] = txt "cis,,!='4".
Proof.
  cbv zeta. split; [split; [|split]|split; [|split]]; try reflexivity.
  - repeat constructor.
  - apply (in_order_iff Note); [repeat constructor|]. repeat (apply in_child_order_cons; split; [intros b J; repeat (destruct J as [<-|J]; [cbn; lia|]); destruct J|]). apply in_child_order_nil.
  - intros [|[|[|n]]] L; cbn; lia.
Qed.
