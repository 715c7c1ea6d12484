From Coq Require Import List ZArith QArith Bool Lia Lqa Morphisms.
From Verif Require Import Base Duration_Model Duration_Proofs Time_Model Time_Spec Time_Proofs Scale_Spec Scale_Proofs Play_Spec.
From Verif Require Rhythm_Model Rhythm_Spec Rhythm_Proofs.
Import ListNotations.
Open Scope nat_scope.

(** ** Shifting durations does not depend on how a number is represented *)
Lemma round_scale n d k : round_half_even (n * Zpos k # d * k) = round_half_even (n # d).
Proof.
  unfold round_half_even. cbn [Qnum Qden]. rewrite Pos2Z.inj_mul. rewrite Z.div_mul_cancel_r by discriminate. rewrite Z.mul_mod_distr_r by discriminate.
  set (r := (n mod Z.pos d)%Z). assert (A : (2 * (r * Z.pos k) <? Z.pos d * Z.pos k)%Z = (2 * r <? Z.pos d)%Z).
  { apply Bool.eq_iff_eq_true. rewrite !Z.ltb_lt. rewrite Z.mul_assoc. rewrite <- Z.mul_lt_mono_pos_r by lia. tauto. }
  assert (B : (Z.pos d * Z.pos k <? 2 * (r * Z.pos k))%Z = (Z.pos d <? 2 * r)%Z).
  { apply Bool.eq_iff_eq_true. rewrite !Z.ltb_lt. rewrite Z.mul_assoc. rewrite <- Z.mul_lt_mono_pos_r by lia. tauto. }
  rewrite A, B. reflexivity.
Qed.
Global Instance round_proper : Proper (Qeq ==> eq) round_half_even.
Proof.
  intros [a b] [c d] E. unfold Qeq in E. cbn in E. rewrite <- (round_scale a b d), <- (round_scale c d b). rewrite E, (Pos.mul_comm d b). reflexivity.
Qed.
Lemma frexpQ_eq v w : (v == w)%Q -> (fst (frexpQ v) == fst (frexpQ w))%Q /\ snd (frexpQ v) = snd (frexpQ w).
Proof. intros E. split; [exact (frexpQ_fst_proper v w E)|exact (frexpQ_snd_proper v w E)]. Qed.
Lemma to_float_eq v w : (v == w)%Q -> (to_float v == to_float w)%Q.
Proof.
  intros E. unfold to_float. rewrite (Qeqb_comp v w E 0%Q 0%Q (Qeq_refl 0)). destruct (Qeq_bool w 0); [reflexivity|]. destruct (frexpQ_eq v w E) as (_ & ->).
  assert (round_half_even (v * p2 (53 - snd (frexpQ w))) = round_half_even (w * p2 (53 - snd (frexpQ w)))) as ->; [|reflexivity]. apply round_proper. rewrite E. reflexivity.
Qed.
Lemma log_dotcount_eq v w : (v == w)%Q -> log_dotcount v = log_dotcount w.
Proof.
  intros E. unfold log_dotcount, frexp. destruct (frexpQ_eq _ _ (to_float_eq v w E)) as (A & B). destruct (frexpQ (to_float v)) as [m e]. destruct (frexpQ (to_float w)) as [m' e']. cbn [fst snd] in A, B. subst e'.
  assert (A' : (1 - m == 1 - m')%Q) by (rewrite A; reflexivity). destruct (frexpQ_eq _ _ A') as (C & D). destruct (frexpQ (1 - m)) as [x y]. destruct (frexpQ (1 - m')) as [x' y']. cbn [fst snd] in C, D. subst y'.
  rewrite (Qleb_comp x x' C (1#2) (1#2) (Qeq_refl _)). reflexivity.
Qed.
Lemma transform_length_rel f t d s d' s' : (d' == d)%Q -> (s' == f * s)%Q -> same (transform_length t d' s') (times f (transform_length t d s)).
Proof.
  intros D S. unfold transform_length, transform_apply. destruct (negb (t_log t =? 0)%Z || negb (t_dotcount t =? 0)%Z).
  - unfold shift_duration. rewrite (log_dotcount_eq d' d D). destruct (log_dotcount d) as [x y]. destruct (Duration_Model.duration _ _) as [q|e]; cbn; [|reflexivity]. rewrite S. ring.
  - cbn. rewrite D, S. ring.
Qed.

(** ** Trees with other durations *)
Definition scaled_by (f : Q) (a b : Q * Q) : Prop := (fst b == fst a /\ snd b == f * snd a)%Q.
Definition kind_by (f : Q) (a b : kind) : Prop :=
  match a, b with
  | Note d s, Note d' s' | Durable d s, Durable d' s' | Chord d s, Chord d' s' | Skip d s, Skip d' s' => scaled_by f (d, s) (d', s')
  | Note _ _, _ | Durable _ _, _ | Chord _ _, _ | Skip _ _, _ => False
  | _, _ => a = b
  end.
Inductive both {A} (R : A -> A -> Prop) : option A -> option A -> Prop :=
| both_none : both R None None
| both_some a b : R a b -> both R (Some a) (Some b).
Inductive tempo (f : Q) : mn -> mn -> Prop :=
| tempo_node k k' tr v v' kids kids' : kind_by f k k' -> both (tempo f) v v' -> (is_event k = true -> kids' = kids) ->
    (is_event k = true \/ Forall2 (tempo f) kids kids') -> tempo f (MN k tr v kids) (MN k' tr v' kids').
Lemma kind_same f k k' : kind_by f k k' -> is_music k' = is_music k /\ is_reference k' = is_reference k /\ is_note k' = is_note k /\ is_duration k' = is_duration k /\ forall par par',
  match par, par' with Some a, Some b => kind_by f a b | None, None => True | _, _ => False end -> is_sequential par' k' = is_sequential par k.
Proof.
  intros K. assert (S : forall a b, kind_by f a b -> (match b with Simultaneous => true | _ => false end) = (match a with Simultaneous => true | _ => false end)).
  { intros a b H. destruct a, b; try contradiction; try discriminate; reflexivity. }
  destruct k, k'; try contradiction; try discriminate; repeat split; try reflexivity. intros [a|] [b|] H; try contradiction; [|reflexivity]. specialize (S a b H). cbn. destruct a, b; try reflexivity; try discriminate S.
Qed.
Lemma tempo_kind f m m' : tempo f m m' -> kind_by f (kind_of m) (kind_of m') /\ transform_of m' = transform_of m /\ (is_event (kind_of m) = true \/ Forall2 (tempo f) (kids_of m) (kids_of m')).
Proof. destruct 1. auto. Qed.
Lemma tempo_notes f m m' : tempo f m m' -> existsb (fun n => is_note (kind_of n)) (kids_of m') = existsb (fun n => is_note (kind_of n)) (kids_of m).
Proof.
  destruct 1 as [k k' tr v v' kids kids' K V E [H|H]]; cbn [kids_of]; [rewrite E by exact H; reflexivity|]. induction H as [|x y l l' T _ IH]; [reflexivity|]. cbn. rewrite IH by (intros X; specialize (E X); congruence).
  destruct (tempo_kind _ _ _ T) as (KK & _). destruct (kind_same f _ _ KK) as (_ & _ & -> & _). reflexivity.
Qed.
Lemma tempo_enter f m m' t : tempo f m m' -> enter t m' = enter t m.
Proof. intros T. unfold enter. destruct (tempo_kind _ _ _ T) as (_ & -> & _). reflexivity. Qed.
Lemma exists_F2 {A} (R : A -> A -> Prop) (g : A -> bool) l l' : Forall2 R l l' -> (forall x y, R x y -> g y = g x) -> existsb g l' = existsb g l.
Proof. intros F H. induction F as [|x y l l' E _ IH]; [reflexivity|]. cbn. rewrite IH, (H x y E). reflexivity. Qed.
Lemma map_F2_eq {A B} (R : A -> A -> Prop) (g : A -> B) l l' : Forall2 R l l' -> (forall x y, R x y -> g y = g x) -> map g l' = map g l.
Proof. intros F H. induction F as [|x y l l' E _ IH]; [reflexivity|]. cbn. rewrite IH, (H x y E). reflexivity. Qed.

Lemma event_by f k k' : kind_by f k k' -> is_event k' = is_event k.
Proof. destruct k, k'; intros K; try contradiction; try discriminate; reflexivity. Qed.
Lemma time_length_event f t par par' k k' kids l l' e : kind_by f k k' -> is_event k = true -> same (time_length t par' k' kids l' e) (times f (time_length t par k kids l e)).
Proof.
  intros K E. destruct k, k'; try contradiction; try discriminate; cbn [time_length]; try (destruct K; apply transform_length_rel; assumption).
  destruct (existsb _ kids); [destruct K; apply transform_length_rel; assumption|cbn; ring].
Qed.
Lemma time_length_tempo f t par par' k k' kids kids' l l' e : (0 <= f)%Q -> kind_by f k k' -> match par, par' with Some a, Some b => kind_by f a b | None, None => True | _, _ => False end ->
  is_event k = false -> Forall2 (tempo f) kids kids' -> Forall2 (fun a b => same a (times f b)) l' l -> same (time_length t par' k' kids' l' e) (times f (time_length t par k kids l e)).
Proof.
  intros F K P NE T H.
  assert (M : forall s, same (music_time_length s l' e) (times f (music_time_length s l e))).
  { intros s. unfold music_time_length. destruct s.
    - apply sum_by; [|ring]. destruct e; cbn [upto]; [apply firstn_F2|]; exact H.
    - destruct e; [cbn; ring|]. apply maximum_by; [exact F|exact H|exact Logic.I]. }
  destruct (kind_same f k k' K) as (_ & _ & _ & _ & SQ). specialize (SQ par par' P).
  destruct k, k'; try contradiction; try discriminate; cbn [time_length] in *; rewrite ?SQ; try apply M.
  - assert (existsb (fun n => is_duration (kind_of n)) kids' = existsb (fun n => is_duration (kind_of n)) kids) as ->.
    { apply (exists_F2 (tempo f)); [exact T|]. intros x y E. destruct (tempo_kind _ _ _ E) as (KK & _). apply (kind_same f _ _ KK). }
    destruct (existsb _ kids); [destruct K; apply transform_length_rel; assumption|apply M].
  - assert (map (fun n => is_music (kind_of n)) kids' = map (fun n => is_music (kind_of n)) kids) as ->.
    { apply (map_F2_eq (tempo f)); [exact T|]. intros x y E. destruct (tempo_kind _ _ _ E) as (KK & _). apply (kind_same f _ _ KK). }
    apply after_grace_by. exact H.
Qed.
Definition par_by f (par par' : option kind) : Prop := match par, par' with Some a, Some b => kind_by f a b | None, None => True | _, _ => False end.
Lemma F2_map_in {A B} (R : A -> A -> Prop) (S : B -> B -> Prop) (g h : A -> B) l l' : Forall2 R l l' -> (forall x y, In x l -> R x y -> S (h y) (g x)) -> Forall2 S (map h l') (map g l).
Proof. intros F. induction F as [|x y l l' E _ IH]; intros H; cbn; constructor; [apply H; [left; reflexivity|exact E]|apply IH; intros a b I; apply H; right; exact I]. Qed.
Lemma ctx_tempo f m : (0 <= f)%Q -> forall m' t par par', tempo f m m' -> par_by f par par' -> same (ctx_length t par' m') (times f (ctx_length t par m)).
Proof.
  intros F. induction m as [k tr v kids IHv IH] using mn_induction. intros m' t par par' T P. pose proof T as T0. inversion T as [k0 k' tr0 v0 v' kids0 kids' K V EV KS]; subst. rewrite !ctx_length_eq.
  destruct (kind_same f k k' K) as (EM & ER & _ & _ & _). rewrite EM, ER. destruct (is_reference k).
  - inversion V as [|m m' VM]; subst; [reflexivity|]. apply (IHv m eq_refl); [exact VM|exact Logic.I].
  - destruct (is_music k); [|cbn; ring]. rewrite (tempo_enter f _ _ t T0). destruct (is_event k) eqn:E.
    + rewrite (EV eq_refl). apply time_length_event; assumption.
    + destruct KS as [KS|KS]; [discriminate|]. apply time_length_tempo; [exact F|exact K|exact P|exact E|exact KS|].
      apply (F2_map_in (tempo f)) with (1 := KS). intros x y I TT. apply (IH x I); [exact TT|exact K].
Qed.

(** ** The same at any place *)
Lemma F2_nth_r {A B} (R : A -> B -> Prop) l l' i : Forall2 R l l' -> match nth_error l i, nth_error l' i with Some x, Some y => R x y | None, None => True | _, _ => False end.
Proof. intros H. revert i. induction H as [|x y l l' E _ IH]; intros [|i]; cbn [nth_error]; [exact Logic.I|exact Logic.I|exact E|apply IH]. Qed.
Lemma out_cons m i p c : outside_events m (i :: p) -> nth_error (kids_of m) i = Some c -> is_event (kind_of m) = false /\ outside_events c p.
Proof.
  intros O N. split; [apply (O [] (i :: p) m); [reflexivity|discriminate|reflexivity]|]. intros q r n -> R Q. apply (O (i :: q) r n); [reflexivity|exact R|]. cbn [node_at]. rewrite N. exact Q.
Qed.
Lemma out_prefix m p q : outside_events m (p ++ q) -> outside_events m p.
Proof. intros O a b n -> B N. apply (O a (b ++ q) n); [rewrite app_assoc; reflexivity|destruct b; [contradiction|discriminate]|exact N]. Qed.
Lemma tempo_at f p : forall m m', outside_events m p -> tempo f m m' -> match node_at m p, node_at m' p with Some x, Some y => tempo f x y | None, None => True | _, _ => False end.
Proof.
  induction p as [|i p IH]; intros m m' O T; cbn [node_at]; [exact T|]. destruct (tempo_kind _ _ _ T) as (_ & _ & KS).
  destruct KS as [KS|KS]; [pose proof (O [] (i :: p) m eq_refl ltac:(discriminate) eq_refl); congruence|]. pose proof (F2_nth_r _ _ _ i KS) as N.
  destruct (nth_error (kids_of m) i) eqn:NI, (nth_error (kids_of m') i); try contradiction; [apply IH; [apply (out_cons m i p _ O NI)|exact N]|exact Logic.I].
Qed.
Lemma tempo_parent f m m' p : outside_events m p -> tempo f m m' -> par_by f (parent_kind m p) (parent_kind m' p).
Proof.
  intros O T. destruct p as [|i p _] using rev_ind; [exact Logic.I|]. rewrite !parent_snoc. pose proof (tempo_at f p _ _ (out_prefix _ _ _ O) T) as N. destruct (node_at m p), (node_at m' p); try contradiction; [|exact Logic.I]. cbn. apply (tempo_kind _ _ _ N).
Qed.
Lemma tempo_context f m m' p : outside_events m p -> tempo f m m' -> context m' p = context m p.
Proof.
  intros O T. unfold context. assert (F : forall rp, outside_events m (rev rp) -> Forall2 (tempo f) (music_ancestors m rp) (music_ancestors m' rp)).
  { induction rp as [|i rp IH]; intros OR; [constructor|]. cbn [rev] in OR. apply out_prefix in OR. cbn [music_ancestors]. pose proof (tempo_at f (rev rp) _ _ OR T) as N. destruct (node_at m (rev rp)) as [x|], (node_at m' (rev rp)) as [y|]; try contradiction; [|constructor].
    destruct (tempo_kind _ _ _ N) as (K & _). destruct (kind_same f _ _ K) as (-> & _). destruct (is_music (kind_of x)); [|constructor]. apply Forall2_app; [apply IH; exact OR|]. repeat constructor. exact N. }
  specialize (F (rev p)). rewrite rev_involutive in F. specialize (F O). revert F. generalize (music_ancestors m (rev p)) (music_ancestors m' (rev p)) transform_default. intros l l' t H. revert t. induction H as [|x y l l' E _ IH]; intros t; [reflexivity|].
  cbn [fold_left]. rewrite (tempo_enter f x y t E). apply IH.
Qed.
Lemma length_tempo f m m' p : (0 <= f)%Q -> outside_events m p -> tempo f m m' -> same (length m' p) (times f (length m p)).
Proof.
  intros F O T. pose proof (tempo_at f p _ _ O T) as N. destruct (node_at m p) as [x|] eqn:X, (node_at m' p) as [y|] eqn:Y; try contradiction.
  - rewrite (length_ctx _ _ _ X), (length_ctx _ _ _ Y), (tempo_context f m m' p O T). apply ctx_tempo; [exact F|exact N|apply tempo_parent; assumption].
  - unfold length. rewrite X, Y. reflexivity.
Qed.
Lemma follow_tempo f tr : (0 <= f)%Q -> forall t par par' m m' L L', outside_events m tr -> tempo f m m' -> par_by f par par' -> (L' == f * L)%Q ->
  match follow_trail t par m L tr, follow_trail t par' m' L' tr with
  | Ok (t1, p1, m1, l1), Ok (t2, p2, m2, l2) => t2 = t1 /\ par_by f p1 p2 /\ tempo f m1 m2 /\ (l2 == f * l1)%Q
  | Err e, Err e' => e = e'
  | _, _ => False
  end.
Proof.
  intros F. induction tr as [|i tr IH]; intros t par par' m m' L L' O T P E; cbn [follow_trail]; [auto|].
  assert (NE : is_event (kind_of m) = false) by (apply (O [] (i :: tr) m); [reflexivity|discriminate|reflexivity]).
  destruct (tempo_kind _ _ _ T) as (K & _ & [KS|KS]); [congruence|]. rewrite (tempo_enter f _ _ t T). destruct (kind_same f _ _ K) as (_ & _ & _ & _ & SQ). rewrite (SQ par par' P).
  assert (N : forall L1 L1', (L1' == f * L1)%Q -> match match nth_error (kids_of m) i with Some c => follow_trail (enter t m) (Some (kind_of m)) c L1 tr | None => Err IndexError end,
     match nth_error (kids_of m') i with Some c => follow_trail (enter t m) (Some (kind_of m')) c L1' tr | None => Err IndexError end with
    | Ok (t1, p1, m1, l1), Ok (t2, p2, m2, l2) => t2 = t1 /\ par_by f p1 p2 /\ tempo f m1 m2 /\ (l2 == f * l1)%Q | Err e, Err e' => e = e' | _, _ => False end).
  { intros L1 L1' E1. pose proof (F2_nth_r _ _ _ i KS) as N. destruct (nth_error (kids_of m) i) eqn:NI, (nth_error (kids_of m') i); try contradiction; [|reflexivity]. apply IH; [apply (out_cons m i tr _ O NI)|exact N|exact K|exact E1]. }
  destruct (negb (i =? 0) && is_sequential par (kind_of m)); [|cbn [bindr]; apply N; exact E].
  assert (TL : same (time_length (enter t m) par' (kind_of m') (kids_of m') (map (ctx_length (enter t m) (Some (kind_of m'))) (kids_of m')) (Some i))
     (times f (time_length (enter t m) par (kind_of m) (kids_of m) (map (ctx_length (enter t m) (Some (kind_of m))) (kids_of m)) (Some i)))).
  { apply time_length_tempo; [exact F|exact K|exact P|exact NE|exact KS|]. apply (F2_map_in (tempo f)) with (1 := KS). intros x y I E1. apply ctx_tempo; [exact F|exact E1|exact K]. }
  destruct (time_length _ par' _ _ _ _) as [a|e], (time_length _ par _ _ _ _) as [b|e']; cbn in TL; try contradiction; cbn [bindr]; [|congruence]. apply N. rewrite E, TL. ring.
Qed.
Lemma preceding_tempo f m m' : tempo f m m' -> forall p, outside_events m p -> preceding_music m' p = preceding_music m p.
Proof.
  intros T p. induction p as [|i p IH] using rev_ind; intros O; [reflexivity|]. rewrite !preceding_snoc, IH by (apply out_prefix in O; exact O). pose proof (tempo_at f p _ _ (out_prefix _ _ _ O) T) as N. destruct (node_at m p) as [x|], (node_at m' p) as [y|]; try contradiction; [|reflexivity].
  destruct (tempo_kind _ _ _ N) as (K & _). destruct (kind_same f _ _ K) as (-> & _). reflexivity.
Qed.
Lemma preceding_app m p : fst (preceding_music m p) ++ snd (preceding_music m p) = p.
Proof.
  induction p as [|i p IH] using rev_ind; [reflexivity|]. rewrite preceding_snoc. destruct (node_at m p) as [x|]; [|cbn; apply app_nil_r]. destruct (is_music (kind_of x)); [|cbn; apply app_nil_r]. destruct (preceding_music m p) as [a b]. cbn [fst snd] in *. rewrite app_assoc, IH. reflexivity.
Qed.
Lemma node_at_two m p : forall q, node_at m (p ++ q) = match node_at m p with Some n => node_at n q | None => None end.
Proof. revert m. induction p as [|i p IH]; intros m q; [reflexivity|]. cbn. destruct (nth_error (kids_of m) i); [apply IH|reflexivity]. Qed.
Lemma out_suffix m p q n : outside_events m (p ++ q) -> node_at m p = Some n -> outside_events n q.
Proof. intros O N a b c -> B C. apply (O (p ++ a) b c); [rewrite app_assoc; reflexivity|exact B|]. rewrite node_at_two, N. exact C. Qed.
Lemma position_tempo f m m' p inc : (0 <= f)%Q -> outside_events m p -> tempo f m m' -> same_position f (position m' p inc) (position m p inc).
Proof.
  intros F O T. unfold position. rewrite (preceding_tempo f m m' T p O). pose proof (preceding_app m p) as PA. destruct (preceding_music m p) as [top tr]. cbn [fst snd] in PA. rewrite <- PA in O.
  pose proof (out_prefix _ _ _ O) as OT. pose proof (tempo_at f top _ _ OT T) as N. destruct (node_at m top) as [x|] eqn:NX, (node_at m' top) as [y|]; try contradiction; [|reflexivity].
  pose proof (follow_tempo f tr F transform_default (parent_kind m top) (parent_kind m' top) x y 0%Q 0%Q (out_suffix _ _ _ _ O NX) N (tempo_parent f m m' top OT T) ltac:(ring)) as FT.
  destruct (follow_trail _ (parent_kind m top) _ _ _) as [[[[t1 p1] m1] l1]|e], (follow_trail _ (parent_kind m' top) _ _ _) as [[[[t2 p2] m2] l2]|e']; try contradiction; cbn [bindr]; [|cbn; congruence].
  destruct FT as (-> & P & TT & E). destruct inc; [|cbn; auto]. pose proof (ctx_tempo f m1 F m2 t1 p1 p2 TT P) as C.
  destruct (ctx_length t1 p2 m2) as [a|e], (ctx_length t1 p1 m1) as [b|e']; cbn in C; try contradiction; cbn; [|exact C]. split; [reflexivity|]. rewrite E, C. ring.
Qed.

(** ** Durations from a list *)
Fixpoint plays (l : list mn) (ds : list (Q * Q)) : list mn * list (Q * Q) :=
  match l with [] => ([], ds) | c :: r => let (c, ds) := play c ds in let (r, ds) := plays r ds in (c :: r, ds) end.
Lemma play_eq k tr v kids ds : play (MN k tr v kids) ds =
  let event := is_event k in
  let (k, ds) := match ds with (d, s) :: r => match with_duration k d s with Some k => (k, r) | None => (k, ds) end | [] => (k, ds) end in
  if event then (MN k tr v kids, ds) else let (kids, ds) := plays kids ds in (MN k tr v kids, ds).
Proof.
  cbn [play]. destruct (match ds with [] => (k, ds) | (d, s) :: r => match with_duration k d s with Some k0 => (k0, r) | None => (k, ds) end end) as [k0 ds0]. cbv zeta. destruct (is_event k); [reflexivity|].
  match goal with |- (let (_, _) := ?a in _) = (let (_, _) := ?b in _) => assert (a = b) as ->; [|reflexivity] end.
  clear. revert ds0. induction kids as [|c r IH]; intros ds; [reflexivity|]. cbn [plays]. destruct (play c ds) as [c' ds']. rewrite IH. reflexivity.
Qed.
Lemma tempo_refl f m : (f == 1)%Q -> tempo f m m.
Proof.
  intros F. induction m as [k tr v kids IHv IH] using mn_induction. constructor; [| |reflexivity|right].
  - destruct k; cbn; try reflexivity; split; cbn; try reflexivity; rewrite F; ring.
  - destruct v as [m|]; constructor; apply IHv; reflexivity.
  - clear IHv. induction kids as [|c kids IHk]; constructor; [apply IH; left; reflexivity|apply IHk; intros x I; apply IH; right; exact I].
Qed.
Lemma split_len {A} (l : list A) a b : List.length l = a + b -> exists x y, l = x ++ y /\ List.length x = a /\ List.length y = b.
Proof. intros H. exists (firstn a l), (skipn a l). split; [symmetry; apply firstn_skipn|]. rewrite firstn_length, skipn_length. lia. Qed.
Lemma play_by f m : (f == 1)%Q \/ no_references m -> forall ds ds' rest rest', Forall2 (scaled_by f) ds ds' -> List.length ds = List.length (durations_of m) ->
  exists m1 m2, play m (ds ++ rest) = (m1, rest) /\ play m (ds' ++ rest') = (m2, rest') /\ tempo f m1 m2 /\ durations_of m1 = ds.
Proof.
  induction m as [k tr v kids _ IH] using mn_induction. intros R ds ds' rest rest' H L.
  assert (KIDS : is_event k = false -> forall ds ds' rest rest', Forall2 (scaled_by f) ds ds' -> List.length ds = List.length (flat_map durations_of kids) ->
    exists k1 k2, plays kids (ds ++ rest) = (k1, rest) /\ plays kids (ds' ++ rest') = (k2, rest') /\ Forall2 (tempo f) k1 k2 /\ flat_map durations_of k1 = ds).
  { intros _. assert (RK : forall c, In c kids -> (f == 1)%Q \/ no_references c). { intros c I. destruct R as [R|R]; [left; exact R|right]. inversion R; subst. auto. }
    clear - IH RK. induction kids as [|c kids IHk]; intros ds ds' rest rest' H L.
    - destruct ds; [|discriminate]. inversion H; subst. exists [], []. repeat split; constructor.
    - cbn [flat_map] in L. rewrite app_length in L. destruct (split_len _ _ _ L) as (a & b & -> & LA & LB). apply Forall2_app_inv_l in H. destruct H as (a' & b' & HA & HB & ->).
      rewrite <- !app_assoc. cbn [plays]. destruct (IH c (or_introl eq_refl) (RK c (or_introl eq_refl)) a a' (b ++ rest) (b' ++ rest') HA LA) as (c1 & c2 & -> & -> & T & D).
      destruct (IHk (fun x I => IH x (or_intror I)) (fun x I => RK x (or_intror I)) b b' rest rest' HB LB) as (k1 & k2 & -> & -> & TS & DS). do 2 eexists. split; [reflexivity|]. split; [reflexivity|]. split; [constructor; assumption|]. cbn. rewrite D, DS. reflexivity. }
  assert (V : both (tempo f) v v). { destruct v as [m|]; constructor. destruct R as [R|R]; [apply tempo_refl; exact R|inversion R]. }
  rewrite !play_eq. cbv zeta. cbn [durations_of] in L. rewrite app_length in L.
  destruct (duration_in k) as [|d0 [|d1 dl]] eqn:DK; [| |destruct k; discriminate].
  - assert (NE : is_event k = false) by (destruct k; try discriminate; reflexivity). rewrite NE in *. cbn [List.length Nat.add] in L. assert (NW : forall ds0, match ds0 with (d, s) :: r => match with_duration k d s with Some k0 => (k0, r) | None => (k, ds0) end | [] => (k, ds0) end = (k, ds0)).
    { intros [|[d s] r]; [reflexivity|]. destruct k; try discriminate; reflexivity. }
    rewrite !NW. destruct (KIDS eq_refl ds ds' rest rest' H L) as (k1 & k2 & -> & -> & TS & DS). do 2 eexists. split; [reflexivity|]. split; [reflexivity|]. split.
    + constructor; [|exact V|rewrite NE; discriminate|right; exact TS]. destruct k; try discriminate; reflexivity.
    + cbn [durations_of]. rewrite DK, NE, DS. reflexivity.
  - cbn [List.length Nat.add] in L. destruct ds as [|[d s] ds]; [discriminate|]. cbn in L. injection L as L. inversion H as [|x [d' s'] l l' B H']; subst. cbn [app].
    assert (W : forall d s, exists k1, with_duration k d s = Some k1 /\ is_event k1 = is_event k /\ duration_in k1 = [(d, s)] /\ forall d' s', scaled_by f (d, s) (d', s') -> exists k2, with_duration k d' s' = Some k2 /\ kind_by f k1 k2).
    { intros a b. destruct k; try discriminate; cbn [with_duration]; eexists; (split; [reflexivity|]; split; [reflexivity|]; split; [reflexivity|]; intros a' b' BB; eexists; split; [reflexivity|exact BB]). }
    destruct (W d s) as (k1 & -> & E1 & D1 & W2). destruct (W2 d' s' B) as (k2 & -> & KB). destruct (is_event k) eqn:EK.
    + destruct ds; [|discriminate]. inversion H'; subst. do 2 eexists. split; [reflexivity|]. split; [reflexivity|]. split.
      * constructor; [exact KB|exact V|reflexivity|left; exact E1].
      * cbn [durations_of]. rewrite D1, E1. reflexivity.
    + destruct (KIDS eq_refl ds l' rest rest' H' L) as (c1 & c2 & -> & -> & TS & DS). do 2 eexists. split; [reflexivity|]. split; [reflexivity|]. split.
      * constructor; [exact KB|exact V|rewrite E1; discriminate|right; exact TS].
      * cbn [durations_of]. rewrite D1, E1, DS. reflexivity.
Qed.

(** ** Places in the tree with other durations *)
Inductive like : mn -> mn -> Prop :=
| like_node k k' tr v kids kids' : is_event k' = is_event k -> Forall2 like kids kids' -> like (MN k tr v kids) (MN k' tr v kids').
Lemma like_refl m : like m m.
Proof. induction m as [k tr v kids _ IH] using mn_induction. constructor; [reflexivity|]. induction kids as [|c r IHr]; constructor; [apply IH; left; reflexivity|apply IHr; intros x I; apply IH; right; exact I]. Qed.
Lemma play_like m : forall ds, like m (fst (play m ds)).
Proof.
  induction m as [k tr v kids _ IH] using mn_induction. intros ds. rewrite play_eq. cbv zeta.
  set (a := match ds with [] => (k, ds) | (d, s) :: r => match with_duration k d s with Some k0 => (k0, r) | None => (k, ds) end end).
  assert (E : is_event (fst a) = is_event k). { unfold a. destruct ds as [|[d s] r]; [reflexivity|]. destruct k; reflexivity. }
  destruct a as [k0 ds0]. cbn [fst] in E. destruct (is_event k) eqn:EK.
  - cbn [fst]. constructor; [congruence|]. clear. induction kids; constructor; [apply like_refl|assumption].
  - assert (G : forall ds, Forall2 like kids (fst (plays kids ds))).
    { clear - IH. induction kids as [|c r IHr]; intros ds; [constructor|]. cbn [plays]. pose proof (IH c (or_introl eq_refl) ds) as H. destruct (play c ds) as [c' ds']. specialize (IHr (fun x I => IH x (or_intror I)) ds'). destruct (plays r ds') as [r' ds'']. constructor; assumption. }
    specialize (G ds0). destruct (plays kids ds0) as [kids' ds']. cbn [fst] in *. constructor; [congruence|exact G].
Qed.
Lemma like_at p : forall m m' n', like m m' -> node_at m' p = Some n' -> exists n, node_at m p = Some n /\ is_event (kind_of n') = is_event (kind_of n).
Proof.
  induction p as [|i p IH]; intros m m' n' L N; cbn [node_at] in *.
  - injection N as <-. exists m. split; [reflexivity|]. destruct L; assumption.
  - destruct L as [k k' tr v kids kids' E F]. cbn [kids_of] in *. pose proof (F2_nth_r _ _ _ i F) as R. destruct (nth_error kids' i) as [c'|]; [|discriminate]. destruct (nth_error kids i) as [c|]; [|contradiction]. exact (IH _ _ _ R N).
Qed.
Lemma out_play m ds p : outside_events m p -> outside_events (fst (play m ds)) p.
Proof. intros O q r n -> R N. destruct (like_at _ _ _ _ (play_like m ds) N) as (n0 & N0 & ->). exact (O q r n0 eq_refl R N0). Qed.
