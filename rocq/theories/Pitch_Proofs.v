From Coq Require Import String Ascii List ZArith QArith Qround Bool Lia Lqa Permutation Sorted.
From Coq Require Import ZifyBool ZifyNat.
From Verif Require Import Base Pitch_Model Pitch_Spec.
Import ListNotations.
Open Scope Z_scope.
Ltac Zify.zify_post_hook ::= Z.div_mod_to_equations.

(** * Order *)

Lemma qeqb_spec a b : reflect (a == b)%Q (Qeq_bool a b).
Proof. apply iff_reflect. symmetry. apply Qeq_bool_iff. Qed.
Lemma qleb_spec a b : reflect (a <= b)%Q (Qle_bool a b).
Proof. apply iff_reflect. symmetry. apply Qle_bool_iff. Qed.
Lemma qltb_spec a b : reflect (a < b)%Q (Qlt_bool a b).
Proof.
  unfold Qlt_bool. destruct (qleb_spec b a); constructor.
  - now apply Qle_not_lt.
  - now apply Qnot_le_lt.
Qed.

Ltac cmp_cases :=
  repeat match goal with
  | |- context [?a =? ?b] => destruct (Z.eqb_spec a b)
  | |- context [?a <? ?b] => destruct (Z.ltb_spec a b)
  | |- context [?a <=? ?b] => destruct (Z.leb_spec a b)
  | |- context [Qeq_bool ?a ?b] => destruct (qeqb_spec a b)
  | |- context [Qle_bool ?a ?b] => destruct (qleb_spec a b)
  | |- context [Qlt_bool ?a ?b] => destruct (qltb_spec a b)
  end; cbn [negb andb].

Lemma pitch_eq_spec a b : pitch_eq a b = true <-> peq a b.
Proof. unfold pitch_eq, peq. cmp_cases; intuition (try congruence; try lra). Qed.

Lemma pitch_ne_spec a b : pitch_ne a b = negb (pitch_eq a b).
Proof. reflexivity. Qed.

Lemma pitch_lt_spec a b : pitch_lt a b = true <-> plt a b.
Proof. unfold pitch_lt, plt. cmp_cases; split; intros HH; try discriminate; try reflexivity; try tauto; try lia; intuition (try congruence; try lia; try lra). Qed.

Lemma pitch_gt_spec a b : pitch_gt a b = true <-> plt b a.
Proof. unfold pitch_gt, plt. cmp_cases; split; intros HH; try discriminate; try reflexivity; try tauto; try lia; intuition (try congruence; try lia; try lra). Qed.

Lemma pitch_le_spec a b : pitch_le a b = true <-> plt a b \/ peq a b.
Proof. unfold pitch_le, plt, peq. cmp_cases; split; intros HH; try discriminate; try reflexivity; try tauto; try lia; intuition (try congruence; try lia; try lra). Qed.

Lemma pitch_ge_spec a b : pitch_ge a b = true <-> plt b a \/ peq a b.
Proof. unfold pitch_ge, plt, peq. cmp_cases; split; intros HH; try discriminate; try reflexivity; try tauto; try lia; intuition (try congruence; try lia; try lra). Qed.

Lemma plt_trans a b c : plt a b -> plt b c -> plt a c.
Proof.
  unfold plt. intros H1 H2.
  destruct H1 as [H1|[H1 [H1'|[H1' H1'']]]], H2 as [H2|[H2 [H2'|[H2' H2'']]]]; try (left; lia);
    right; (split; [lia|]); try (left; lia). right. split; [lia|lra].
Qed.

Lemma plt_total a b : (plt a b /\ ~ peq a b /\ ~ plt b a) \/
  (~ plt a b /\ peq a b /\ ~ plt b a) \/ (~ plt a b /\ ~ peq a b /\ plt b a).
Proof.
  unfold plt, peq.
  destruct (Z.lt_trichotomy (octave a) (octave b)) as [H|[H|H]]; [left|idtac|right; right].
  - intuition lia.
  - destruct (Z.lt_trichotomy (note a) (note b)) as [N|[N|N]]; [left; intuition lia| |right; right; intuition lia].
    destruct (Q_dec (alter a) (alter b)) as [[Q|Q]|Q].
    + left. intuition (try lia; lra).
    + right. right. intuition (try lia; lra).
    + right. left. intuition (try lia; lra).
  - intuition lia.
Qed.

(** * MIDI *)

Lemma Qtrunc_int q n : (q == inject_Z n)%Q -> Qtrunc q = n.
Proof.
  intros E. unfold Qtrunc. destruct (Qle_bool 0 q).
  - rewrite (Qfloor_comp _ _ E). apply Qfloor_Z.
  - assert (X : (- q == inject_Z (- n))%Q) by (rewrite E, inject_Z_opp; reflexivity).
    rewrite (Qfloor_comp _ _ X), Qfloor_Z. lia.
Qed.

Definition flat_key (flats : list Q) (key : Z) : bool := existsb (Qeq_bool (inject_Z (key mod 12) / 2)) flats.

Lemma from_midi_spec flats key :
  let p := from_midi major_scale flats key in
  0 <= note p <= 6 /\ octave p = key / 12 - 5 /\
  (if in_dec Z.eq_dec (key mod 12) [0; 2; 4; 5; 7; 9; 11] then (alter p == 0)%Q
   else if flat_key flats key then (alter p == - (1#2))%Q else (alter p == 1#2)%Q) /\
  to_midi major_scale p = key.
Proof.
  intros p. subst p. unfold flat_key, from_midi.
  set (f := existsb _ flats).
  assert (B : 0 <= key mod 12 < 12) by (apply Z.mod_pos_bound; lia).
  pose proof (Z.div_mod key 12 ltac:(lia)) as E.
  set (k := key mod 12) in *. clearbody k. set (o := key / 12) in *. clearbody o.
  assert (C : k = 0 \/ k = 1 \/ k = 2 \/ k = 3 \/ k = 4 \/ k = 5 \/ k = 6 \/ k = 7 \/ k = 8 \/ k = 9 \/ k = 10 \/ k = 11) by lia.
  clearbody f.
  repeat (destruct C as [C|C]); subst k; destruct f; cbn [octave note alter];
    (split; [vm_compute; split; discriminate|]); (split; [reflexivity|]); (split; [vm_compute; reflexivity|]);
    unfold to_midi; cbn [octave note alter]; apply Qtrunc_int;
    replace (o - 5 + 5) with o by lia.
  all: rewrite E, (Z.mul_comm 12 o), inject_Z_plus; apply Qplus_comp; [reflexivity|vm_compute; reflexivity].
Qed.

(** * Absolute and relative *)

Lemma abs_rel l p prev d : make_absolute l (make_relative l p prev d) prev d = p.
Proof. destruct p as [o n a]. unfold make_absolute, make_relative. cbn [octave note alter]. f_equal. lia. Qed.

Lemma rel_abs l p prev d : make_relative l (make_absolute l p prev d) prev d = p.
Proof. destruct p as [o n a]. unfold make_absolute, make_relative. cbn [octave note alter]. f_equal. lia. Qed.

Lemma absolute_nearest p prev d : octave p = d ->
  let q := make_absolute 7 p prev d in
  note q = note p /\ alter q = alter p /\ Z.abs (staff q - staff prev) <= 3 /\
  (forall o, Z.abs (7 * o + note p - staff prev) <= 3 -> o = octave q).
Proof. intros H. unfold make_absolute, staff. cbn [octave note alter]. repeat split; lia. Qed.

Lemma absolute_marks l p prev d k :
  octave (make_absolute l (Pitch (d + k) (note p) (alter p)) prev d)
  = octave (make_absolute l (Pitch d (note p) (alter p)) prev d) + k.
Proof. unfold make_absolute. cbn [octave note alter]. lia. Qed.

(** * Octave strings *)

Lemma filter_repeat_same (c : ascii) n : filter (Ascii.eqb c) (repeat c n) = repeat c n.
Proof. induction n as [|n IH]; [reflexivity|]. cbn [repeat filter]. now rewrite Ascii.eqb_refl, IH. Qed.
Lemma filter_repeat_diff (c d : ascii) n : c <> d -> filter (Ascii.eqb c) (repeat d n) = [].
Proof.
  intros H. induction n as [|n IH]; [reflexivity|]. cbn [repeat filter].
  destruct (Ascii.eqb_spec c d); [contradiction|exact IH].
Qed.

Lemma octave_roundtrip n : octave_from_string (octave_to_string n) = n.
Proof.
  unfold octave_from_string, octave_to_string, count. destruct (Z.ltb_spec n 0).
  - rewrite filter_repeat_same, filter_repeat_diff by discriminate. rewrite repeat_length. cbn [List.length]. lia.
  - rewrite filter_repeat_same, filter_repeat_diff by discriminate. rewrite repeat_length. cbn [List.length]. lia.
Qed.

Lemma octave_string_shape n :
  octave_to_string n = if n <? 0 then repeat ","%char (Z.abs_nat n) else repeat "'"%char (Z.abs_nat n).
Proof.
  unfold octave_to_string. destruct (Z.ltb_spec n 0); f_equal; lia.
Qed.

Lemma octave_from_app a b : octave_from_string (a ++ b) = octave_from_string a + octave_from_string b.
Proof. unfold octave_from_string, count. rewrite !filter_app, !app_length. lia. Qed.

(** * Dictionaries *)

Section Dict.
  Context {K V : Type} (eqb : K -> K -> bool).
  Hypothesis eqb_refl : forall a, eqb a a = true.
  Hypothesis eqb_sym : forall a b, eqb a b = eqb b a.
  Hypothesis eqb_trans : forall a b c, eqb a b = true -> eqb b c = true -> eqb a c = true.

  Lemma eqb_left a b c : eqb a b = true -> eqb a c = eqb b c.
  Proof.
    intros H. destruct (eqb b c) eqn:E.
    - eapply eqb_trans; eassumption.
    - destruct (eqb a c) eqn:F; [|reflexivity]. rewrite eqb_sym in H. rewrite (eqb_trans _ _ _ H F) in E. discriminate.
  Qed.

  Lemma dget_upd (d : dict K V) k f k' :
    dget eqb (dict_upd eqb k f d) k' = if eqb k k' then Some (f (dget eqb d k)) else dget eqb d k'.
  Proof.
    induction d as [|[x v] r IH]; cbn [dict_upd dget].
    - destruct (eqb k k'); reflexivity.
    - destruct (eqb x k) eqn:E; cbn [dget].
      + rewrite (eqb_left x k k' E). destruct (eqb k k'); reflexivity.
      + destruct (eqb x k') eqn:F; [|exact IH].
        destruct (eqb k k') eqn:G; [|reflexivity].
        rewrite eqb_sym in G. rewrite (eqb_trans _ _ _ F G) in E. discriminate.
  Qed.

  Lemma dget_in (d : dict K V) k v : dget eqb d k = Some v -> exists k', In (k', v) d /\ eqb k' k = true.
  Proof.
    induction d as [|[x w] r IH]; cbn [dget]; [discriminate|]. destruct (eqb x k) eqn:E.
    - intros [= <-]. exists x. split; [now left|exact E].
    - intros H. destruct (IH H) as (k' & A & B). exists k'. split; [now right|exact B].
  Qed.

  Lemma dget_keys (d : dict K V) k : (exists v, dget eqb d k = Some v) <-> exists k', In k' (map fst d) /\ eqb k' k = true.
  Proof.
    induction d as [|[x w] r IH]; cbn [dget map fst].
    - split; [intros [v H]; discriminate|intros (k' & [] & _)].
    - destruct (eqb x k) eqn:E.
      + split; [intros _; exists x; split; [now left|exact E]|intros _; now exists w].
      + rewrite IH. split; intros (k' & A & B); exists k'; (split; [|exact B]).
        * now right.
        * destruct A as [<-|A]; [congruence|exact A].
  Qed.
End Dict.

Lemma str_eqb_spec a b : reflect (a = b) (str_eqb a b).
Proof. unfold str_eqb. destruct (list_eq_dec ascii_dec a b); now constructor. Qed.

Lemma str_eqb_refl a : str_eqb a a = true.
Proof. destruct (str_eqb_spec a a); congruence. Qed.

Lemma dget_str_in {V} (d : dict str V) k v : dget str_eqb d k = Some v -> In (k, v) d.
Proof.
  intros H. apply dget_in in H. destruct H as (k' & A & B).
  destruct (str_eqb_spec k' k); [now subst|discriminate].
Qed.

Lemma dget_str_unique {V} (d : dict str V) k v : dict_ok d -> In (k, v) d -> dget str_eqb d k = Some v.
Proof.
  unfold dict_ok. induction d as [|[x w] r IH]; [intros _ []|]. cbn [map fst dget]. intros ND H.
  inversion ND as [|? ? NI ND']; subst. destruct (str_eqb_spec x k) as [->|NE].
  - destruct H as [H|H]; [congruence|]. exfalso. apply NI. now apply (in_map fst) in H.
  - destruct H as [H|H]; [congruence|now apply IH].
Qed.

Lemma noteq_refl a : noteq a a = true.
Proof. unfold noteq. rewrite Z.eqb_refl. cbn. now apply Qeq_bool_iff. Qed.
Lemma noteq_iff a b : noteq a b = true <-> fst a = fst b /\ (snd a == snd b)%Q.
Proof. unfold noteq. rewrite andb_true_iff, Z.eqb_eq, Qeq_bool_iff. reflexivity. Qed.
Lemma noteq_sym a b : noteq a b = noteq b a.
Proof. apply eq_true_iff_eq. rewrite !noteq_iff. intuition. Qed.
Lemma noteq_trans a b c : noteq a b = true -> noteq b c = true -> noteq a c = true.
Proof. rewrite !noteq_iff. intros [A B] [C D]. split; [congruence|now rewrite B]. Qed.

(** * The reversed table *)

Definition names_for (t : table) (n : Z) (a : Q) (o : Z) : list str :=
  map fst (filter (fun e => let '(_, (o', n', a')) := e in noteq (n', a') (n, a) && (o' =? o)) t).

Definition rev_get (d : reversed) (n : Z) (a : Q) (o : Z) : option (list str) :=
  match dget noteq d (n, a) with Some od => dget Z.eqb od o | None => None end.

Lemma rev_get_add d name o n a o' n' a' :
  rev_get (add_name d (name, (o, n, a))) n' a' o' =
  if noteq (n, a) (n', a') && (o =? o') then Some (odefault [] (rev_get d n a o) ++ [name])
  else rev_get d n' a' o'.
Proof.
  unfold rev_get, add_name.
  rewrite (dget_upd noteq noteq_sym noteq_trans).
  destruct (noteq (n, a) (n', a')) eqn:E; [|reflexivity].
  rewrite (dget_upd Z.eqb Z.eqb_sym).
  2:{ intros x y z. rewrite !Z.eqb_eq. congruence. }
  assert (X : dget noteq d (n, a) = dget noteq d (n', a')).
  { clear - E. induction d as [|[x v] r IH]; [reflexivity|]. cbn [dget].
    rewrite (noteq_sym x (n, a)), (eqb_left noteq noteq_sym noteq_trans _ _ x E), (noteq_sym _ x).
    now rewrite IH. }
  rewrite X. cbn [andb]. destruct (o =? o') eqn:O.
  - destruct (dget noteq d (n', a')); reflexivity.
  - destruct (dget noteq d (n', a')); reflexivity.
Qed.

Lemma names_for_app t e n a o : names_for (t ++ [e]) n a o =
  names_for t n a o ++ (let '(name, (o', n', a')) := e in if noteq (n', a') (n, a) && (o' =? o) then [name] else []).
Proof.
  unfold names_for. rewrite filter_app, map_app. f_equal. destruct e as [name [[o' n'] a']]. cbn [filter].
  destruct (noteq (n', a') (n, a) && (o' =? o)); reflexivity.
Qed.

Lemma rev_get_eq_args d n a o n' a' : noteq (n, a) (n', a') = true -> rev_get d n a o = rev_get d n' a' o.
Proof.
  intros E. unfold rev_get.
  assert (X : dget noteq d (n, a) = dget noteq d (n', a')).
  { induction d as [|[x v] r IH]; [reflexivity|]. cbn [dget].
    rewrite (noteq_sym x (n, a)), (eqb_left noteq noteq_sym noteq_trans _ _ x E), (noteq_sym _ x).
    now rewrite IH. }
  now rewrite X.
Qed.

Lemma reverse_table_get t n a o : rev_get (reverse_table t) n a o =
  match names_for t n a o with [] => None | l => Some l end.
Proof.
  unfold reverse_table. revert n a o. induction t as [|[name [[o n] a]] t IH] using rev_ind; intros n' a' o'; [reflexivity|].
  rewrite fold_left_app. cbn [fold_left]. rewrite rev_get_add, names_for_app.
  destruct (noteq (n, a) (n', a') && (o =? o')) eqn:E.
  - apply andb_prop in E. destruct E as [E1 E2]. apply Z.eqb_eq in E2. subst o'.
    rewrite (rev_get_eq_args _ _ _ o _ _ E1), IH.
    destruct (names_for t n' a' o); reflexivity.
  - rewrite app_nil_r. apply IH.
Qed.

(** Keys of the inner dictionaries are distinct, so [map fst] and lookup agree. *)
Lemma reverse_table_key t n a od o : dget noteq (reverse_table t) (n, a) = Some od -> In o (map fst od) ->
  exists names, dget Z.eqb od o = Some names /\ names = names_for t n a o /\ names <> [].
Proof.
  intros E H. pose proof (reverse_table_get t n a o) as G. unfold rev_get in G. rewrite E in G.
  destruct (proj2 (dget_keys Z.eqb od o)) as [names N].
  { exists o. split; [exact H|apply Z.eqb_refl]. }
  exists names. split; [exact N|]. rewrite N in G. destruct (names_for t n a o); [discriminate|].
  injection G as ->. split; [reflexivity|discriminate].
Qed.

Lemma names_for_in t n a o name : In name (names_for t n a o) <-> names_pitch t name o n a.
Proof.
  unfold names_for, names_pitch. rewrite in_map_iff. split.
  - intros ([name' [[o' n'] a']] & <- & H). apply filter_In in H. destruct H as [H1 H2].
    apply andb_prop in H2. destruct H2 as [H2 H3]. apply noteq_iff in H2. cbn in H2. destruct H2 as [-> H2].
    apply Z.eqb_eq in H3. subst. exists a'. split; [exact H1|exact H2].
  - intros (a' & H & E). exists (name, (o, n, a')). split; [reflexivity|]. apply filter_In.
    split; [exact H|]. rewrite Z.eqb_refl, andb_true_r. apply noteq_iff. now split.
Qed.

Lemma reverse_table_some t n a : (exists name o, names_pitch t name o n a) <->
  exists od, dget noteq (reverse_table t) (n, a) = Some od.
Proof.
  split.
  - intros (name & o & H). apply names_for_in in H. pose proof (reverse_table_get t n a o) as G.
    unfold rev_get in G. destruct (dget noteq (reverse_table t) (n, a)) as [od|]; [now exists od|].
    destruct (names_for t n a o); [destruct H|discriminate].
  - intros [od E].
    assert (NE : forall d e, (forall k v, dget noteq d k = Some v -> v <> []) ->
       forall k v, dget noteq (add_name d e) k = Some v -> v <> []).
    { intros d [name [[o' n'] a']] I k v H. unfold add_name in H.
      rewrite (dget_upd noteq noteq_sym noteq_trans) in H. destruct (noteq (n', a') k); [|now apply (I k)].
      injection H as <-. destruct (odefault [] _) as [|[x w] r]; cbn [dict_upd]; [discriminate|].
      destruct (x =? o'); discriminate. }
    assert (NE2 : forall t k v, dget noteq (reverse_table t) k = Some v -> v <> []).
    { intros t' . unfold reverse_table.
      assert (G : forall l d, (forall k v, dget noteq d k = Some v -> v <> []) ->
         forall k v, dget noteq (fold_left add_name l d) k = Some v -> v <> []).
      { induction l as [|e l IH]; intros d I; [exact I|]. cbn [fold_left]. apply IH. intros k v. apply NE. exact I. }
      apply G. discriminate. }
    pose proof (NE2 t _ _ E) as X. destruct od as [|[o names] r]; [congruence|].
    destruct (reverse_table_key t n a _ o E) as (names' & N1 & N2 & N3); [now left|].
    destruct names' as [|nm ns]; [congruence|].
    exists nm, o. apply names_for_in. rewrite <- N2. now left.
Qed.

(** * Sorting *)

Lemma insert_perm {A} leb (x : A) l : Permutation (insert_by leb x l) (x :: l).
Proof.
  induction l as [|y r IH]; [reflexivity|]. cbn [insert_by]. destruct (leb x y); [reflexivity|].
  rewrite IH. apply perm_swap.
Qed.
Lemma sort_perm {A} leb (l : list A) : Permutation (sort_by leb l) l.
Proof.
  induction l as [|x r IH]; [reflexivity|]. cbn [sort_by]. rewrite insert_perm. now constructor.
Qed.

Lemma sort_head_min {A} (key : A -> Z) l x r :
  sort_by (fun a b => key a <=? key b) l = x :: r -> In x l /\ forall y, In y l -> key x <= key y.
Proof.
  intros E.
  assert (S : forall l, StronglySorted (fun a b => key a <= key b) (sort_by (fun a b => key a <=? key b) l)).
  { clear. induction l as [|x r IH]; [constructor|]. cbn [sort_by]. set (s := sort_by _ r) in *. clearbody s.
    induction IH as [|y s S' IH F]; cbn [insert_by]; [repeat constructor|].
    destruct (Z.leb_spec (key x) (key y)).
    - constructor; [now constructor|]. constructor; [assumption|].
      eapply Forall_impl; [|exact F]. cbn. intros a Ha. lia.
    - constructor; [exact IH|]. eapply Permutation_Forall; [symmetry; apply insert_perm|].
      constructor; [lia|exact F]. }
  specialize (S l). rewrite E in S. pose proof (sort_perm (fun a b => key a <=? key b) l) as P. rewrite E in P.
  inversion S as [|? ? S' F]; subst.
  split; [eapply Permutation_in; [exact P|now left]|].
  intros y Hy. apply (Permutation_in _ (Permutation_sym P)) in Hy. destruct Hy as [<-|Hy]; [lia|].
  rewrite Forall_forall in F. now apply F.
Qed.

(** * Choosing a name *)

Lemma first_name_in f l n : first_name f l = Some n -> In n l.
Proof. intros H. apply find_some in H. tauto. Qed.

Lemma filter_incl {A} (f : A -> bool) l : incl (filter f l) l.
Proof. intros x H. apply filter_In in H. tauto. Qed.

Lemma two_stage_in f g l n :
  (match filter f l with
   | [x] => Some x
   | _ => first_name g (match filter f l with [] => l | _ => filter f l end)
   end) = Some n -> In n l.
Proof.
  assert (I := filter_incl f l).
  destruct (filter f l) as [|x [|y r]] eqn:E.
  - apply first_name_in.
  - intros [= <-]. apply I. now left.
  - intros H. apply first_name_in in H. now apply I.
Qed.

Lemma suitable_in P l n : suitable P l = Some n -> In n l.
Proof.
  unfold suitable.
  repeat match goal with |- (if ?b then _ else _) = _ -> _ => destruct b end;
    try apply first_name_in; try discriminate.
  - unfold s_english. destruct (prefer_long P).
    + destruct (first_name (contains _) l) eqn:E; [|apply first_name_in].
      intros [= <-]. eapply first_name_in; exact E.
    + apply first_name_in.
  - apply two_stage_in.
  - apply two_stage_in.
Qed.

Lemma choose_in P l : l <> [] -> In (choose_name P l) l.
Proof.
  intros NE. unfold choose_name.
  assert (L : In (last l []) l).
  { destruct l as [|x r]; [congruence|]. rewrite (app_removelast_last [] NE) at 2. apply in_or_app. right. now left. }
  destruct l as [|x [|y r]]; [congruence|now left|].
  destruct (suitable P (x :: y :: r)) as [[|c s]|] eqn:E; try exact L.
  eapply suitable_in; exact E.
Qed.

Lemma name_octave_sound T P p name k :
  name_octave T P p = Ok (name, k) ->
  exists t o, lang_table T (language P) = Ok t /\ names_pitch t name o (note p) (alter p) /\
    o + k = octave p /\
    (forall name' o', names_pitch t name' o' (note p) (alter p) -> Z.abs k <= Z.abs (octave p - o')).
Proof.
  unfold name_octave. destruct (lang_table T (language P)) as [t|] eqn:TL; cbn [bindr]; [|discriminate].
  destruct (dget noteq (reverse_table t) (note p, alter p)) as [od|] eqn:D; [|discriminate].
  destruct (sort_by _ _) as [|o r] eqn:S; [discriminate|].
  apply (sort_head_min (fun o => Z.abs (o - octave p))) in S. destruct S as [S1 S2].
  destruct (reverse_table_key t _ _ _ o D S1) as (names & N1 & N2 & N3). rewrite N1.
  intros H. injection H as <- <-.
  exists t, o. split; [reflexivity|]. split; [|split; [lia|]].
  - apply names_for_in. rewrite <- N2. now apply choose_in.
  - intros name' o' H. apply names_for_in in H.
    assert (I : In o' (map fst od)).
    { pose proof (reverse_table_get t (note p) (alter p) o') as G. unfold rev_get in G. rewrite D in G.
      destruct (names_for t (note p) (alter p) o'); [destruct H|].
      destruct (proj1 (dget_keys Z.eqb od o') (ex_intro _ _ G)) as (k' & K1 & K2).
      apply Z.eqb_eq in K2. now subst. }
    specialize (S2 o' I). cbn in S2. lia.
Qed.

Lemma name_octave_complete T P p t : lang_table T (language P) = Ok t ->
  (exists name o, names_pitch t name o (note p) (alter p)) ->
  exists name k, name_octave T P p = Ok (name, k).
Proof.
  intros TL H. apply reverse_table_some in H. destruct H as [od D].
  unfold name_octave. rewrite TL. cbn [bindr]. rewrite D.
  assert (X : exists o, In o (map fst od)).
  { destruct (proj2 (reverse_table_some t (note p) (alter p)) (ex_intro _ od D)) as (name & o & H).
    apply names_for_in in H. pose proof (reverse_table_get t (note p) (alter p) o) as G. unfold rev_get in G.
    rewrite D in G. destruct (names_for t (note p) (alter p) o); [destruct H|].
    destruct (proj1 (dget_keys Z.eqb od o) (ex_intro _ _ G)) as (k' & K1 & _). now exists k'. }
  destruct (sort_by _ _) as [|o r] eqn:S.
  - destruct X as [o X]. pose proof (sort_perm (fun a b => Z.abs (a - octave p) <=? Z.abs (b - octave p)) (map fst od)) as PP.
    rewrite S in PP. apply Permutation_nil in PP. rewrite PP in X. destruct X.
  - apply (sort_head_min (fun o => Z.abs (o - octave p))) in S. destruct S as [S1 _].
    destruct (reverse_table_key t _ _ _ o D S1) as (names & -> & _). eexists _, _. reflexivity.
Qed.

Lemma name_octave_error T P p t e : lang_table T (language P) = Ok t ->
  name_octave T P p = Err e ->
  e = KeyError /\ ~ exists name o, names_pitch t name o (note p) (alter p).
Proof.
  intros TL H. split.
  - unfold name_octave in H. rewrite TL in H. cbn [bindr] in H.
    destruct (dget noteq (reverse_table t) (note p, alter p)) as [od|] eqn:D; [|congruence].
    destruct (proj2 (reverse_table_some t (note p) (alter p)) (ex_intro _ od D)) as (name & o & X).
    destruct (name_octave_complete T P p t TL (ex_intro _ name (ex_intro _ o X))) as (nm & k & Y).
    unfold name_octave in Y. rewrite TL in Y. cbn [bindr] in Y. rewrite D in Y. rewrite Y in H. discriminate.
  - intros X. destruct (name_octave_complete T P p t TL X) as (nm & k & Y). congruence.
Qed.

Lemma lang_table_ok T l t : tables_ok T -> lang_table T l = Ok t -> dict_ok t.
Proof.
  intros [H1 H2]. unfold lang_table. destruct (dget str_eqb T l) as [[i t']|] eqn:E; [|discriminate].
  intros [= <-]. apply dget_str_in in E. eapply H2. exact E.
Qed.

(** * Nodes *)

Lemma node_octave_set n k : node_octave (set_node_octave n k) = k.
Proof.
  unfold node_octave, set_node_octave. destruct (octave_child n) eqn:E; [reflexivity|].
  destruct (Z.eqb_spec k 0); [rewrite E; now subst|reflexivity].
Qed.
Lemma head_set n k : head (set_node_octave n k) = head n.
Proof. unfold set_node_octave. destruct (octave_child n); [|destruct (k =? 0)]; reflexivity. Qed.
Lemma check_set n k : oct_check (set_node_octave n k) = oct_check n.
Proof. unfold set_node_octave. destruct (octave_child n); [|destruct (k =? 0)]; reflexivity. Qed.

Lemma write_read T P n p n' : tables_ok T -> write_node T P n p = (n', Ok tt) ->
  (exists q, read_node T P n' = Ok q /\ peq q p) /\ oct_check n' = oct_check n.
Proof.
  intros OK. unfold write_node. destruct (pitch_of_name T P (head n)) as [q|] eqn:E; [|discriminate].
  destruct ((note q =? note p) && Qeq_bool (alter q) (alter p)) eqn:C.
  - intros [= <-]. rewrite check_set. split; [|reflexivity]. unfold read_node. rewrite head_set, E. cbn [bindr].
    eexists. split; [reflexivity|]. rewrite node_octave_set. apply andb_prop in C. destruct C as [C1 C2].
    apply Z.eqb_eq in C1. apply Qeq_bool_iff in C2. split; [cbn; lia|]. now split.
  - destruct (name_octave T P p) as [[h o]|] eqn:N; [|discriminate]. intros [= <-]. rewrite check_set. split; [|reflexivity].
    unfold read_node. rewrite head_set, node_octave_set. cbn [set_node_head head].
    destruct (name_octave_sound _ _ _ _ _ N) as (t & ot & TL & (a' & I & EA) & EO & _).
    unfold pitch_of_name. rewrite TL. cbn [bindr].
    rewrite (dget_str_unique _ _ _ (lang_table_ok _ _ _ OK TL) I). cbn [bindr].
    eexists. split; [reflexivity|]. split; [exact EO|]. split; [reflexivity|exact EA].
Qed.

Lemma write_fail T P n p n' e : write_node T P n p = (n', Err e) -> n' = n /\ e = KeyError.
Proof.
  unfold write_node. destruct (pitch_of_name T P (head n)) as [q|e'] eqn:E.
  - destruct (_ && _); [discriminate|]. destruct (name_octave T P p) as [[h o]|e'] eqn:N; [discriminate|].
    intros [= <- <-]. split; [reflexivity|].
    unfold pitch_of_name in E. destruct (lang_table T (language P)) as [t|] eqn:TL; [|discriminate].
    now apply (name_octave_error T P p t).
  - intros [= <- <-]. split; [reflexivity|]. unfold pitch_of_name, lang_table in E.
    destruct (dget str_eqb T (language P)) as [[i t]|]; cbn [bindr] in E; [|congruence].
    destruct (dget str_eqb t (head n)) as [[[a b] c]|]; congruence.
Qed.

Lemma write_keeps_head T P n p q n' : pitch_of_name T P (head n) = Ok q ->
  note q = note p -> (alter q == alter p)%Q -> write_node T P n p = (n', Ok tt) -> head n' = head n.
Proof.
  intros E N A. unfold write_node. rewrite E.
  replace ((note q =? note p) && Qeq_bool (alter q) (alter p)) with true.
  - intros [= <-]. apply head_set.
  - symmetry. apply andb_true_intro. split; [now apply Z.eqb_eq|now apply Qeq_bool_iff].
Qed.

Lemma write_succeeds T P n p q t : pitch_of_name T P (head n) = Ok q ->
  lang_table T (language P) = Ok t -> (exists name o, names_pitch t name o (note p) (alter p)) ->
  exists n', write_node T P n p = (n', Ok tt).
Proof.
  intros E TL H. unfold write_node. rewrite E. destruct (_ && _); [eexists; reflexivity|].
  destruct (name_octave_complete T P p t TL H) as (nm & k & ->). eexists. reflexivity.
Qed.
