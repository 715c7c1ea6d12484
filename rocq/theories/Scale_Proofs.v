From Coq Require Import List ZArith QArith Bool Lia Lqa.
From Verif Require Import Base Duration_Model Time_Model Time_Spec Time_Proofs Scale_Model Scale_Spec.
Import ListNotations.
Open Scope nat_scope.

(** ** Equality up to == *)
Lemma same_refl a : same a a. Proof. destruct a; cbn; reflexivity. Qed.
Lemma same_sym a b : same a b -> same b a. Proof. destruct a, b; cbn; intros H; try contradiction; symmetry; exact H. Qed.
Lemma same_trans a b c : same a b -> same b c -> same a c.
Proof. destruct a, b, c; cbn; intros H K; try contradiction; [rewrite H; exact K|congruence]. Qed.
Lemma times_same f a b : same a b -> same (times f a) (times f b).
Proof. destruct a, b; cbn; intros H; try contradiction; [rewrite H; reflexivity|exact H]. Qed.

(** t' is t with the scale multiplied by f *)
Definition by_factor (f : Q) (t' t : transform) : Prop := t_log t' = t_log t /\ t_dotcount t' = t_dotcount t /\ (t_scale t' == f * t_scale t)%Q.
Lemma enter_by f t' t n : by_factor f t' t -> by_factor f (enter t' n) (enter t n).
Proof.
  intros (A & B & C). unfold enter. destruct (transform_of n) as [u|]; [|repeat split; assumption]. destruct (transform_bool u); [|repeat split; assumption].
  unfold by_factor. cbn. split; [lia|]. split; [lia|]. rewrite C. ring.
Qed.
Lemma enter_scale f t tr kids : tr = Some (Transform 0 0 f) -> by_factor f (enter t (MN OtherMusic tr None kids)) t.
Proof.
  intros ->. unfold enter. cbn [transform_of]. unfold transform_bool. cbn. destruct (Qeq_bool f 1) eqn:E; cbn.
  - apply Qeq_bool_iff in E. split; [reflexivity|]. split; [reflexivity|]. rewrite E. ring.
  - unfold by_factor. cbn. split; [lia|]. split; [lia|]. ring.
Qed.
Lemma transform_length_by f t' t d s : by_factor f t' t -> same (transform_length t' d s) (times f (transform_length t d s)).
Proof.
  intros (A & B & C). unfold transform_length, transform_apply. rewrite A, B.
  destruct (if negb (t_log t =? 0)%Z || negb (t_dotcount t =? 0)%Z then _ else _) as [x|e]; cbn [bindr times same]; [|reflexivity]. rewrite C. ring.
Qed.
Lemma sum_by f l l' : Forall2 (fun a b => same a (times f b)) l' l -> forall acc acc', (acc' == f * acc)%Q -> same (sum acc' l') (times f (sum acc l)).
Proof.
  induction 1 as [|a b l' l H _ IH]; intros acc acc' E; cbn [sum]; [exact E|]. destruct a as [a|e], b as [b|e']; cbn in H; try contradiction; cbn [bindr]; [|cbn; exact H].
  apply IH. rewrite E, H. ring.
Qed.
Lemma maximum_by f l l' : (0 <= f)%Q -> Forall2 (fun a b => same a (times f b)) l' l ->
  forall acc acc', match acc', acc with Some a', Some a => (a' == f * a)%Q | None, None => True | _, _ => False end -> same (maximum acc' l') (times f (maximum acc l)).
Proof.
  intros F. induction 1 as [|a b l' l H _ IH]; intros acc acc' E; cbn [maximum].
  - destruct acc, acc'; try contradiction; cbn; [exact E|ring].
  - destruct a as [a|e], b as [b|e']; cbn in H; try contradiction; cbn [bindr]; [|cbn; exact H]. apply IH. destruct acc as [m|], acc' as [m'|]; try contradiction; [|exact H].
    destruct (Qle_bool a m') eqn:E1, (Qle_bool b m) eqn:E2; try assumption.
    + apply Qle_bool_iff in E1. assert (m < b)%Q. { apply Qnot_le_lt. intros L. apply Qle_bool_iff in L. congruence. } rewrite E, H in *. nra.
    + apply Qle_bool_iff in E2. assert (m' < a)%Q. { apply Qnot_le_lt. intros L. apply Qle_bool_iff in L. congruence. } rewrite E, H in *. nra.
Qed.
Lemma firstn_F2 {A B} (R : A -> B -> Prop) l m : Forall2 R l m -> forall k, Forall2 R (firstn k l) (firstn k m).
Proof. induction 1 as [|x y l m H _ IH]; intros [|k]; cbn; constructor; auto. Qed.
Lemma after_grace_by f (bs : list bool) l l' : Forall2 (fun a b => same a (times f b)) l' l -> forall e, same (after_grace (upto e (combine bs l'))) (times f (after_grace (upto e (combine bs l)))).
Proof.
  intros H e. assert (G : forall bs, same (after_grace (combine bs l')) (times f (after_grace (combine bs l)))).
  { clear bs e. induction H as [|a b l' l R _ IH]; intros [|x bs]; cbn [combine after_grace]; try (cbn; ring). destruct x; [exact R|apply IH]. }
  destruct e as [k|]; cbn [upto]; [|apply G]. assert (C : forall (A : Type) k (bs : list bool) (l : list A), firstn k (combine bs l) = combine (firstn k bs) l).
  { clear. intros A. induction k as [|k IH]; intros [|b bs] [|x l]; try reflexivity. cbn. f_equal. apply IH. }
  rewrite !C. apply G.
Qed.
Lemma time_length_by f t' t par k kids l' l e : (0 <= f)%Q -> by_factor f t' t -> Forall2 (fun a b => same a (times f b)) l' l ->
  same (time_length t' par k kids l' e) (times f (time_length t par k kids l e)).
Proof.
  intros F B H. assert (M : forall s, same (music_time_length s l' e) (times f (music_time_length s l e))).
  { intros s. unfold music_time_length. destruct s.
    - apply sum_by; [|ring]. destruct e; cbn [upto]; [apply firstn_F2|]; exact H.
    - destruct e; [cbn; ring|]. apply maximum_by; [exact F|exact H|exact I]. }
  destruct k; cbn [time_length]; try apply M; try (apply transform_length_by; exact B).
  - destruct (existsb _ kids); [apply transform_length_by; exact B|cbn; ring].
  - destruct (existsb _ kids); [apply transform_length_by; exact B|apply M].
  - apply after_grace_by. exact H.
Qed.
Lemma map_F2 {A B} (R : B -> B -> Prop) (g h : A -> B) l : (forall x, In x l -> R (g x) (h x)) -> Forall2 R (map g l) (map h l).
Proof. induction l as [|x l IH]; intros H; cbn; constructor; [apply H; left; reflexivity|apply IH; intros y I; apply H; right; exact I]. Qed.
Lemma ctx_by f n : (0 <= f)%Q -> forall t' t par, by_factor f t' t -> same (ctx_length t' par n) (times f (ctx_length t par n)).
Proof.
  intros F. induction n as [k tr v kids IHv IH] using mn_induction. intros t' t par B. rewrite !ctx_length_eq. destruct (is_reference k).
  - destruct v as [m|]; [apply (IHv m eq_refl); exact B|reflexivity].
  - destruct (is_music k); [|cbn; ring]. apply time_length_by; [exact F|apply enter_by; exact B|]. apply map_F2. intros c I. apply (IH c I). apply enter_by. exact B.
Qed.

(** ** What transform() returns *)
Lemma fraction_ok a b : b <> 0%Z -> fraction a b = Ok (inject_Z a / inject_Z b)%Q.
Proof. intros H. unfold fraction. apply Z.eqb_neq in H. rewrite H. reflexivity. Qed.
Lemma inert_fraction l r : Forall inert l -> first_fraction (l ++ r) = first_fraction r.
Proof. induction 1 as [|x l H _ IH]; [reflexivity|]. destruct x; try contradiction. exact IH. Qed.
Lemma inert_num l r : Forall inert l -> first_num (l ++ r) = first_num r.
Proof. induction 1 as [|x l H _ IH]; [reflexivity|]. destruct x; try contradiction. exact IH. Qed.
Lemma inert_ints l r : Forall inert l -> ints (l ++ r) = ints r.
Proof. induction 1 as [|x l H _ IH]; [reflexivity|]. destruct x; try contradiction. exact IH. Qed.
Lemma number_value x q : number x q -> exists v, get_num_value x = Ok (Some v) /\ (v == q)%Q.
Proof.
  destruct 1 as [z|q|a b H|n q H]; cbn [get_num_value].
  - eexists. split; reflexivity.
  - eexists. split; reflexivity.
  - rewrite (fraction_ok _ _ H). eexists. split; reflexivity.
  - destruct H as [(-> & D)|[->| ->]]; cbn [num_value]; eexists; split; try reflexivity. destruct q as [a d]. cbn in *. subst d. reflexivity.
Qed.
Lemma inject_nonzero a : a <> 0%Z -> ~ (inject_Z a == 0)%Q.
Proof. unfold Qeq. cbn. lia. Qed.
Lemma tuplet_factor a b : a <> 0%Z -> b <> 0%Z -> Qeq_bool (inject_Z a / inject_Z b) 0 = false /\ (1 / (inject_Z a / inject_Z b) == inject_Z b / inject_Z a)%Q.
Proof.
  intros A B. apply inject_nonzero in A. apply inject_nonzero in B. split.
  - destruct (Qeq_bool _ 0) eqn:E; [|reflexivity]. apply Qeq_bool_iff in E. exfalso. apply A. setoid_replace (inject_Z a) with (inject_Z a / inject_Z b * inject_Z b)%Q by (field; exact B). rewrite E. ring.
  - field. split; assumption.
Qed.
Lemma transform_scales c args i m f : scales_by c args i m f -> exists g, command_transform c args = Ok (Some (Transform 0 0 g)) /\ (g == f)%Q.
Proof.
  destruct 1 as [c x f pre mid post m W P _ _|c pre post m C _ _].
  - destruct W as [a b B|a b A B|x q N]; cbn [command_transform].
    + rewrite inert_fraction by exact P. cbn [first_fraction]. rewrite (fraction_ok _ _ B). cbn. eexists. split; reflexivity.
    + rewrite inert_fraction by exact P. cbn [first_fraction]. rewrite (fraction_ok _ _ B). cbn [bindr]. destruct (tuplet_factor a b A B) as (-> & E). eexists. split; [reflexivity|exact E].
    + rewrite inert_num by exact P. cbn [first_num]. destruct (number_value x q N) as (v & -> & E). cbn. eexists. split; [reflexivity|exact E].
  - exists 0%Q. split; [|reflexivity]. destruct C as [<-|[<-|[<-|[<-|[]]]]]; reflexivity.
Qed.
Lemma args_split c args i m f : scales_by c args i m f -> exists l r, args = l ++ ANode m :: r /\ List.length l = i /\
  (forall x, In x l -> kind_of (arg_node x) = Other \/ kind_of (arg_node x) = Duration) /\ (forall x, In x r -> kind_of (arg_node x) = Other \/ kind_of (arg_node x) = Duration).
Proof.
  assert (IN : forall l, Forall inert l -> forall x, In x l -> kind_of (arg_node x) = Other \/ kind_of (arg_node x) = Duration).
  { intros l H x I. rewrite Forall_forall in H. specialize (H x I). destruct x; try contradiction. exact H. }
  destruct 1 as [c x f pre mid post m W P M Q|c pre post m C P Q].
  - exists (pre ++ x :: mid), post. split; [rewrite <- app_assoc; reflexivity|]. split; [rewrite app_length; reflexivity|]. split; [|apply IN; exact Q].
    intros y I. apply in_app_iff in I. destruct I as [I|[<-|I]]; [apply (IN _ P _ I)| |apply (IN _ M _ I)]. destruct W as [| |y q []]; left; reflexivity.
  - exists pre, post. repeat split; [apply IN; exact P|apply IN; exact Q].
Qed.

(** ** Lengths *)
Lemma max_zero_acc l : (forall r, In r l -> r = Ok 0%Q) -> forall m, (0 <= m)%Q -> same (maximum (Some m) l) (Ok m).
Proof.
  induction l as [|r l IH]; intros H m M; cbn [maximum]; [reflexivity|]. rewrite (H r) by (left; reflexivity). cbn [bindr]. apply Qle_bool_iff in M. rewrite M. apply IH; [intros x I; apply H; right; exact I|].
  apply Qle_bool_iff. exact M.
Qed.
Lemma max_zeros a b r : (forall x, In x a -> x = Ok 0%Q) -> (forall x, In x b -> x = Ok 0%Q) -> (forall x, r = Ok x -> (0 <= x)%Q) -> same (maximum None (a ++ r :: b)) r.
Proof.
  intros A B R. assert (S : forall acc, match acc with None => True | Some m => m = 0%Q end -> same (maximum acc (r :: b)) r).
  { intros acc H. cbn [maximum]. destruct r as [x|e]; [|reflexivity]. cbn [bindr]. specialize (R x eq_refl). destruct acc as [m|]; [subst m|apply max_zero_acc; assumption].
    destruct (Qle_bool x 0) eqn:E; [|apply max_zero_acc; assumption]. apply Qle_bool_iff in E. eapply same_trans; [apply max_zero_acc; [exact B|apply Qle_refl]|]. cbn. apply Qle_antisym; assumption. }
  assert (G : forall acc, match acc with None => True | Some m => m = 0%Q end -> same (maximum acc (a ++ r :: b)) r); [|apply G; exact Logic.I].
  induction a as [|y a IH]; intros acc H; [apply S; exact H|]. cbn [app maximum]. rewrite (A y) by (left; reflexivity). cbn [bindr]. apply IH; [intros z I; apply A; right; exact I|].
  destruct acc as [m|]; [subst m|]; reflexivity.
Qed.

Lemma command_scaled c args n i m f : command_node c args = Ok n -> scales_by c args i m f ->
  kind_of n = OtherMusic /\ nth_error (kids_of n) i = Some m /\ (exists g, transform_of n = Some (Transform 0 0 g) /\ (g == f)%Q) /\
  (forall t, by_factor f (enter t n) t) /\ exists l r, kids_of n = l ++ m :: r /\ (forall x, In x l -> kind_of x = Other \/ kind_of x = Duration) /\ (forall x, In x r -> kind_of x = Other \/ kind_of x = Duration).
Proof.
  intros N S. destruct (transform_scales _ _ _ _ _ S) as (g & T & G). unfold command_node in N. rewrite T in N. cbn [bindr] in N. injection N as <-.
  destruct (args_split _ _ _ _ _ S) as (l & r & -> & L & IL & IR). cbn [kind_of kids_of transform_of]. split; [reflexivity|]. rewrite map_app. cbn [map arg_node]. split; [|split; [|split]].
  - rewrite nth_error_app2 by (rewrite map_length; lia). rewrite map_length, L, Nat.sub_diag. reflexivity.
  - exists g. split; [reflexivity|exact G].
  - intros t. destruct (enter_scale g t (Some (Transform 0 0 g)) (map arg_node l ++ m :: map arg_node r) eq_refl) as (A & B & C). split; [exact A|]. split; [exact B|]. rewrite C, G. reflexivity.
  - exists (map arg_node l), (map arg_node r). split; [reflexivity|]. split; intros x I; apply in_map_iff in I; destruct I as (y & <- & I); auto.
Qed.
Lemma no_length t par x : kind_of x = Other \/ kind_of x = Duration -> ctx_length t par x = Ok 0%Q.
Proof. intros [K|K]; apply ctx_length_other; rewrite K; reflexivity. Qed.
Lemma nonneg_kid n c : nonneg n -> In c (kids_of n) -> nonneg c.
Proof. destruct 1. cbn. auto. Qed.
Lemma factor_nonneg n g : nonneg n -> transform_of n = Some (Transform 0 0 g) -> (0 <= g)%Q.
Proof. destruct 1 as [k tr v kids _ T _ _]. cbn. intros ->. exact T. Qed.

Lemma not_sim_parent root p : not_in_simultaneous root p -> parent_kind root p <> Some Simultaneous.
Proof.
  intros NS. destruct p as [|j q _] using rev_ind; [discriminate|]. rewrite parent_snoc. destruct (node_at root q) as [x|] eqn:X; [|discriminate]. cbn. intros [= E]. exact (NS q j x eq_refl X E).
Qed.

(** A position does not depend on what is there or after it. *)
Lemma put_firstn q : forall n j r v x y, node_at n (q ++ j :: r) = Some y -> node_at n q = Some x -> exists x', node_at (put n (q ++ j :: r) v) q = Some x' /\ firstn j (kids_of x') = firstn j (kids_of x).
Proof.
  induction q as [|a q IH]; intros n j r v x y N X.
  - cbn [app node_at] in *. injection X as <-. eexists. split; [reflexivity|]. destruct n as [k t o kids]. cbn [put kids_of node_at] in *. destruct (nth_error kids j) eqn:E; [|discriminate].
    assert (j < List.length kids) by (apply nth_error_Some; congruence). rewrite firstn_app, firstn_firstn, Nat.min_id, firstn_length, Nat.min_l by lia. rewrite Nat.sub_diag. cbn [firstn]. apply app_nil_r.
  - cbn [app node_at] in *. destruct (nth_error (kids_of n) a) as [d|] eqn:D; [|discriminate]. rewrite (put_child _ _ _ _ _ D). eapply IH; eauto.
Qed.
Lemma parent_put_above root v n : forall p r, node_at root (p ++ r) = Some n -> parent_kind (put root (p ++ r) v) p = parent_kind root p.
Proof.
  intros p r N. destruct p as [|j p _] using rev_ind; [reflexivity|]. rewrite <- app_assoc in *. cbn [app] in *. rewrite !parent_snoc. destruct (node_at root p) as [x|] eqn:X. 2:{ rewrite node_at_app, X in N. discriminate. }
  destruct (put_above p root j r v x n N X) as (x' & -> & K & _). cbn. rewrite K. reflexivity.
Qed.
Lemma position_put root v n : forall p r, node_at root (p ++ r) = Some n -> position (put root (p ++ r) v) p false = position root p false.
Proof.
  induction p as [|j p IH] using rev_ind; intros r N; [reflexivity|]. rewrite <- app_assoc in *. cbn [app] in *.
  destruct (node_at root p) as [x|] eqn:X. 2:{ rewrite node_at_app, X in N. discriminate. }
  destruct (put_above p root j r v x n N X) as (x' & X' & K & T). destruct (put_firstn p root j r v x n N X) as (x'' & X'' & FK). rewrite X' in X''. injection X'' as <-.
  pose proof N as N1. rewrite node_at_app, X in N1. cbn [node_at] in N1. destruct (nth_error (kids_of x) j) as [y|] eqn:Y; [|discriminate].
  assert (exists y', nth_error (kids_of x') j = Some y') as (y' & Y').
  { pose proof (put_at (p ++ j :: r) root v n N) as PA. rewrite node_at_app, X' in PA. cbn [node_at] in PA. destruct (nth_error (kids_of x') j) as [y'|]; [eauto|discriminate]. }
  destruct (is_music (kind_of x)) eqn:M.
  - rewrite (position_child _ _ _ _ _ X M Y). assert (M' : is_music (kind_of x') = true) by (rewrite K; exact M). rewrite (position_child _ _ _ _ _ X' M' Y').
    rewrite (IH (j :: r) N), (context_put root v n p (j :: r) N), (parent_put_above root v n p (j :: r) N), K.
    destruct (is_sequential (parent_kind root p) (kind_of x)) eqn:SQ; [|rewrite !andb_false_r; reflexivity].
    assert (E : enter (context root p) x' = enter (context root p) x) by (unfold enter; rewrite T; reflexivity). rewrite E.
    assert (EL : forall t par k, is_sequential par k = true -> time_length t par k (kids_of x') (map (ctx_length t (Some k)) (kids_of x')) (Some j) = time_length t par k (kids_of x) (map (ctx_length t (Some k)) (kids_of x)) (Some j)).
    { intros t par k S. destruct k; try discriminate. cbn [time_length]. rewrite S. unfold music_time_length, upto. rewrite !firstn_map, FK. reflexivity. }
    rewrite EL by exact SQ. reflexivity.
  - unfold position. rewrite !preceding_snoc, X, X', K, M. rewrite !node_at_snoc, X, X', Y, Y'. reflexivity.
Qed.

Section Scaled.
Variables (root : mn) (p : list nat) (c : command) (args : list arg) (n m : mn) (i : nat) (f : Q).
Hypothesis NN : nonneg root.
Hypothesis N : node_at root p = Some n.
Hypothesis NC : command_node c args = Ok n.
Hypothesis SB : scales_by c args i m f.
Hypothesis NS : not_in_simultaneous root p.

Lemma f_nonneg : (0 <= f)%Q.
Proof. destruct (command_scaled _ _ _ _ _ _ NC SB) as (_ & _ & (g & T & G) & _). rewrite <- G. eapply factor_nonneg; [eapply nonneg_at; eauto|exact T]. Qed.
Lemma m_parent t a : a = Some OtherMusic \/ a = parent_kind root p -> ctx_length t a m = ctx_length t (parent_kind root p) m.
Proof.
  pose proof (not_sim_parent _ _ NS) as PS.
  intros A. apply ctx_parent. intros _. split; [|exact PS]. destruct A as [->| ->]; [discriminate|exact PS].
Qed.
Lemma there : node_at (put root p m) p = Some m /\ context (put root p m) p = context root p /\ parent_kind (put root p m) p = parent_kind root p.
Proof.
  split; [eapply put_at; exact N|]. split; [|eapply parent_put; exact N]. pose proof (context_put root m n p []) as C. rewrite app_nil_r in C. exact (C N).
Qed.
Lemma length_scaled : same (length root p) (times f (length (put root p m) p)).
Proof.
  destruct there as (N' & C' & P'). rewrite (length_ctx _ _ _ N), (length_ctx _ _ _ N'), C', P'.
  destruct (command_scaled _ _ _ _ _ _ NC SB) as (K & _ & _ & B & l & r & KS & IL & IR). pose proof (nonneg_at root p NN n N) as NNn.
  assert (NM : nonneg m). { eapply nonneg_kid; [exact NNn|]. rewrite KS. apply in_app_iff. right. left. reflexivity. }
  pose proof f_nonneg as FN. pose proof m_parent as MP.
  assert (CN : (0 <= t_scale (context root p))%Q) by (apply context_nonneg; exact NN).
  destruct n as [k tr v kids]. cbn [kind_of kids_of] in *. subst k kids. rewrite ctx_length_eq. cbn [is_reference is_music time_length is_sequential music_time_length]. specialize (B (context root p)).
  set (t' := enter (context root p) _) in *. rewrite map_app. cbn [map].
  assert (BY : same (ctx_length t' (Some OtherMusic) m) (times f (ctx_length (context root p) (parent_kind root p) m))).
  { rewrite MP by (left; reflexivity). apply ctx_by; [exact FN|exact B]. }
  eapply same_trans; [apply max_zeros|exact BY].
  - intros x I. apply in_map_iff in I. destruct I as (y & <- & I). apply no_length. auto.
  - intros x I. apply in_map_iff in I. destruct I as (y & <- & I). apply no_length. auto.
  - intros x E. rewrite E in BY. destruct (ctx_length (context root p) (parent_kind root p) m) as [y|e] eqn:Y; cbn in BY; [|contradiction]. rewrite BY.
    apply Qmult_le_0_compat; [exact FN|]. eapply ctx_nonneg; [exact NM|exact CN|exact Y].
Qed.

(** Below the command. *)
Lemma music_way_snoc q : forall n0 j, music_way n0 (q ++ [j]) <-> music_way n0 q /\ exists x y, node_at n0 q = Some x /\ is_music (kind_of x) = true /\ nth_error (kids_of x) j = Some y.
Proof.
  induction q as [|a q IH]; intros n0 j; cbn [app music_way node_at].
  - split.
    + intros (M & H). destruct (nth_error (kids_of n0) j) as [y|] eqn:E; [|contradiction]. split; [exact Logic.I|]. exists n0, y. auto.
    + intros (_ & x & y & [= <-] & M & E). rewrite E. auto.
  - destruct (nth_error (kids_of n0) a) as [b|]; [rewrite IH; tauto|]. split; [intros (_ & [])|intros ((_ & []) & _)].
Qed.
Lemma below_context q : music_way m q -> exists x, node_at m q = Some x /\ node_at root (p ++ i :: q) = Some x /\ node_at (put root p m) (p ++ q) = Some x /\
  by_factor f (context root (p ++ i :: q)) (context (put root p m) (p ++ q)) /\
  (q <> [] -> parent_kind root (p ++ i :: q) = parent_kind (put root p m) (p ++ q)).
Proof.
  destruct there as (N' & C' & P'). destruct (command_scaled _ _ _ _ _ _ NC SB) as (K & CH & _ & B & _).
  assert (MU : is_music (kind_of n) = true) by (rewrite K; reflexivity).
  assert (ND : forall r, node_at root (p ++ i :: r) = node_at m r) by (intros r; rewrite node_at_app, N; cbn [node_at]; rewrite CH; reflexivity).
  assert (ND' : forall r, node_at (put root p m) (p ++ r) = node_at m r) by (intros r; rewrite node_at_app, N'; reflexivity).
  induction q as [|j q IH] using rev_ind; intros W.
  - exists m. rewrite ND, ND'. cbn [node_at]. repeat split; try reflexivity; try (rewrite app_nil_r, C', (context_snoc _ _ _ _ N MU); apply B). intros H. contradiction H. reflexivity.
  - apply music_way_snoc in W. destruct W as (W & x & y & NX & MX & NY). destruct (IH W) as (x' & NX' & R & R' & BY & _). rewrite NX in NX'. injection NX' as <-.
    exists y. rewrite ND, ND', node_at_snoc, NX. split; [exact NY|]. split; [exact NY|]. split; [exact NY|].
    change (p ++ i :: q ++ [j]) with (p ++ (i :: q) ++ [j]). rewrite !app_assoc. rewrite (context_snoc _ _ _ _ R MX), (context_snoc _ _ _ _ R' MX). split; [apply enter_by; exact BY|]. intros _. rewrite !parent_snoc, R, R'. reflexivity.
Qed.
Lemma length_below q : music_way m q -> same (length root (p ++ i :: q)) (times f (length (put root p m) (p ++ q))).
Proof.
  intros W. destruct (below_context q W) as (x & NX & R & R' & BY & PK). rewrite (length_ctx _ _ _ R), (length_ctx _ _ _ R'). destruct there as (N' & C' & P').
  destruct (command_scaled _ _ _ _ _ _ NC SB) as (K & CH & _ & B & _).
  destruct q as [|j q].
  - rewrite app_nil_r in *. cbn [node_at] in NX. injection NX as <-. rewrite P'. rewrite parent_snoc, N. cbn [option_map]. rewrite K, m_parent by (left; reflexivity). apply ctx_by; [exact f_nonneg|exact BY].
  - rewrite PK by discriminate. apply ctx_by; [exact f_nonneg|exact BY].
Qed.
Lemma position_below q : music_way m q -> 
  (exists e, position root (p ++ i :: q) false = Err e /\ position (put root p m) (p ++ q) false = Err e) \/
  exists top s d d', position root p false = Ok (top, s) /\ position root (p ++ i :: q) false = Ok (top, d') /\ position (put root p m) (p ++ q) false = Ok (top, d) /\ (d' - s == f * (d - s))%Q.
Proof.
  destruct there as (N' & C' & P'). destruct (command_scaled _ _ _ _ _ _ NC SB) as (K & CH & _ & B & _).
  assert (MU : is_music (kind_of n) = true) by (rewrite K; reflexivity).
  pose proof (position_put root m n p []) as PE. rewrite app_nil_r in PE. specialize (PE N).
  induction q as [|j q IH] using rev_ind; intros W.
  - rewrite app_nil_r, PE. rewrite (position_child _ _ _ _ _ N MU CH), K. cbn [is_sequential]. rewrite andb_false_r. destruct (position root p false) as [[top s]|e]; [right|left; exists e; split; reflexivity].
    exists top, s, s, s. repeat split. cbn. ring.
  - apply music_way_snoc in W. destruct W as (W & x & y & NX & MX & NY). destruct (below_context q W) as (x' & NX' & R & R' & BY & PK). rewrite NX in NX'. injection NX' as <-. specialize (IH W).
    change (p ++ i :: q ++ [j]) with (p ++ (i :: q) ++ [j]). rewrite !app_assoc. rewrite (position_child _ _ _ _ _ R MX NY), (position_child _ _ _ _ _ R' MX NY).
    destruct IH as [(e & -> & ->)|(top & s & d & d' & PP & -> & -> & E)]; [left; exists e; split; reflexivity|]. cbn [bindr].
    assert (SQ : is_sequential (parent_kind root (p ++ i :: q)) (kind_of x) = is_sequential (parent_kind (put root p m) (p ++ q)) (kind_of x)).
    { destruct q as [|a q]; [|rewrite PK by discriminate; reflexivity]. rewrite app_nil_r, P', parent_snoc, N. cbn [option_map]. rewrite K. pose proof (not_sim_parent _ _ NS) as PS.
      destruct (kind_of x); try reflexivity. destruct (parent_kind root p) as [[]|]; try reflexivity. contradiction. }
    rewrite SQ. destruct (negb (j =? 0) && is_sequential (parent_kind (put root p m) (p ++ q)) (kind_of x)) eqn:DO.
    2:{ right. exists top, s, d, d'. cbn [bindr]. auto. }
    apply andb_true_iff in DO. destruct DO as (_ & DO).
    assert (TL : same (time_length (enter (context root (p ++ i :: q)) x) (parent_kind root (p ++ i :: q)) (kind_of x) (kids_of x) (map (ctx_length (enter (context root (p ++ i :: q)) x) (Some (kind_of x))) (kids_of x)) (Some j))
      (times f (time_length (enter (context (put root p m) (p ++ q)) x) (parent_kind (put root p m) (p ++ q)) (kind_of x) (kids_of x) (map (ctx_length (enter (context (put root p m) (p ++ q)) x) (Some (kind_of x))) (kids_of x)) (Some j)))).
    { assert (PKI : forall t k l, is_sequential (parent_kind (put root p m) (p ++ q)) k = true -> is_sequential (parent_kind root (p ++ i :: q)) k = true -> time_length t (parent_kind root (p ++ i :: q)) k (kids_of x) l (Some j) = time_length t (parent_kind (put root p m) (p ++ q)) k (kids_of x) l (Some j)).
      { intros t k l S1 S2. destruct k; try discriminate. cbn [time_length]. rewrite S1, S2. reflexivity. }
      rewrite PKI by (rewrite ?SQ; exact DO). apply time_length_by; [exact f_nonneg|apply enter_by; exact BY|]. apply map_F2. intros z _. apply ctx_by; [exact f_nonneg|apply enter_by; exact BY]. }
    destruct (time_length (enter (context root _) _) _ _ _ _ _) as [a|e], (time_length (enter (context (put _ _ _) _) _) _ _ _ _ _) as [b|e']; cbn in TL; try contradiction; cbn [bindr].
    + right. exists top, s, (d + b)%Q, (d' + a)%Q. split; [exact PP|]. split; [reflexivity|]. split; [reflexivity|]. rewrite TL. setoid_replace (d' + f * b - s)%Q with ((d' - s) + f * b)%Q by ring. rewrite E. ring.
    + left. exists e. subst e'. split; reflexivity.
Qed.
End Scaled.

(** ** \shiftDurations *)
Lemma float_int_z q z : (q == inject_Z z)%Q -> float_int q = Some z.
Proof.
  destruct q as [a d]. unfold Qeq. cbn. intros E. unfold float_int. cbn [Qnum Qden]. assert (A : a = (z * Z.pos d)%Z) by lia. rewrite A, Z_mod_mult, Z.div_mul by discriminate. reflexivity.
Qed.
Lemma whole_value x z : whole x z -> get_int_value x = Some z.
Proof. destruct 1; cbn [get_int_value]; try reflexivity; apply float_int_z; assumption. Qed.
Lemma transform_shifts args i m l d : shifts_by args i m l d -> command_transform ShiftDurations args = Ok (Some (Transform l d 1)).
Proof.
  destruct 1 as [x y l d pre mid1 mid2 post m X Y P M1 M2 Q]. cbn [command_transform]. rewrite inert_ints by exact P. cbn [ints]. rewrite (whole_value _ _ X), inert_ints by exact M1. cbn [ints]. rewrite (whole_value _ _ Y). reflexivity.
Qed.

(** ** No number *)
Lemma unread_num x : unread x -> get_num_value x = Ok None /\ get_int_value x = None /\ (forall a b, x <> AFraction a b).
Proof.
  destruct x as [z|q|a b|kids|n]; cbn [unread]; intros H; try contradiction; [|repeat split; discriminate].
  destruct kids as [|[n|] [|k2 kids]]; try (repeat split; discriminate); [exfalso; exact (H n eq_refl)|]. repeat split; try discriminate; cbn; destruct n; reflexivity.
Qed.
Lemma unread_transform c l m r : In c [Times; Tuplet; ScaleDurations; ShiftDurations] -> (forall x, In x (l ++ r) -> unread x) -> command_transform c (l ++ ANode m :: r) = Ok None.
Proof.
  intros C H. assert (G : forall x, In x (l ++ ANode m :: r) -> get_num_value x = Ok None /\ get_int_value x = None /\ (forall a b, x <> AFraction a b)).
  { intros x I. apply in_app_iff in I. destruct I as [I|[<-|I]]; [apply unread_num, H, in_app_iff; auto|repeat split; discriminate|apply unread_num, H, in_app_iff; auto]. }
  revert G. generalize (l ++ ANode m :: r). clear H l r m. intros l G.
  assert (A : first_fraction l = Ok None). { induction l as [|x l IH]; [reflexivity|]. destruct (G x (or_introl eq_refl)) as (_ & _ & F). destruct x; cbn [first_fraction]; try (apply IH; intros y I; apply G; right; exact I). exfalso. eapply F. reflexivity. }
  assert (B : first_num l = Ok None). { clear A. induction l as [|x l IH]; [reflexivity|]. destruct (G x (or_introl eq_refl)) as (F & _). cbn [first_num]. rewrite F. cbn [bindr]. apply IH. intros y I. apply G. right. exact I. }
  assert (D : ints l = []). { clear A B. induction l as [|x l IH]; [reflexivity|]. destruct (G x (or_introl eq_refl)) as (_ & F & _). cbn [ints]. rewrite F. apply IH. intros y I. apply G. right. exact I. }
  destruct C as [<-|[<-|[<-|[<-|[]]]]]; cbn [command_transform]; rewrite ?A, ?B, ?D; reflexivity.
Qed.
Lemma unread_node x : unread x -> kind_of (arg_node x) = Other \/ kind_of (arg_node x) = Duration.
Proof. destruct x; cbn; intros H; try contradiction; auto. Qed.
Lemma length_unread root p c n l r m : nonneg root -> node_at root p = Some n -> In c [Times; Tuplet; ScaleDurations; ShiftDurations] ->
  (forall x, In x (l ++ r) -> unread x) -> command_node c (l ++ ANode m :: r) = Ok n -> not_in_simultaneous root p -> same (length root p) (length (put root p m) p).
Proof.
  intros NN N C U NC NS. unfold command_node in NC. rewrite (unread_transform _ _ _ _ C U) in NC. cbn [bindr] in NC. injection NC as E.
  destruct (there root p n m N) as (N' & C' & P').
  rewrite (length_ctx _ _ _ N), (length_ctx _ _ _ N'), C', P'. rewrite <- E. rewrite ctx_length_eq. cbn [is_reference is_music time_length is_sequential music_time_length enter transform_of]. rewrite map_app, map_app. cbn [map arg_node].
  assert (M : ctx_length (context root p) (Some OtherMusic) m = ctx_length (context root p) (parent_kind root p) m). { apply ctx_parent. intros _. split; [discriminate|apply not_sim_parent; exact NS]. }
  unfold enter. cbn [transform_of]. rewrite M. apply max_zeros.
  - intros x I. apply in_map_iff in I. destruct I as (y & <- & I). apply in_map_iff in I. destruct I as (z & <- & I). apply no_length, unread_node, U, in_app_iff. auto.
  - intros x I. apply in_map_iff in I. destruct I as (y & <- & I). apply in_map_iff in I. destruct I as (z & <- & I). apply no_length, unread_node, U, in_app_iff. auto.
  - intros x X. eapply ctx_nonneg; [|apply context_nonneg; exact NN|exact X]. eapply nonneg_kid; [eapply nonneg_at; eauto|]. rewrite <- E. cbn [kids_of]. rewrite map_app. apply in_app_iff. right. left. reflexivity.
Qed.

(** ** Zeros *)
Lemma zero_fraction c a b l r : Forall inert l ->
  command_node c (l ++ AFraction a b :: r) = Err ZeroDivisionError <->
  (c = Times /\ b = 0%Z) \/ (c = Tuplet /\ (a = 0%Z \/ b = 0%Z)) \/ (c = ScaleDurations /\ b = 0%Z).
Proof.
  intros I. assert (R : forall c, command_node c (l ++ AFraction a b :: r) = Err ZeroDivisionError <-> command_transform c (l ++ AFraction a b :: r) = Err ZeroDivisionError).
  { intros c0. unfold command_node. destruct (command_transform c0 _) as [t|e]; cbn [bindr]; split; intros E; congruence. }
  rewrite R. clear R. destruct c; cbn [command_transform]; rewrite ?inert_fraction, ?inert_num by exact I; cbn [first_fraction first_num get_num_value].
  - unfold fraction. destruct (Z.eqb_spec b 0); cbn [bindr]; split; intros H; try reflexivity; try discriminate; auto. destruct H as [(_ & H)|[(H & _)|(H & _)]]; [contradiction|discriminate|discriminate].
  - destruct (Z.eqb_spec b 0) as [->|B]; [cbn; split; auto|]. rewrite (fraction_ok _ _ B). cbn [bindr]. destruct (Z.eq_dec a 0) as [->|A].
    + assert (Qeq_bool (inject_Z 0 / inject_Z b) 0 = true) as ->; [|split; auto]. apply Qeq_bool_iff. unfold Qdiv. change (inject_Z 0) with 0%Q. ring.
    + destruct (tuplet_factor a b A B) as (-> & _). split; [discriminate|]. intros [(H & _)|[(_ & [H|H])|(H & _)]]; congruence.
  - unfold fraction. destruct (Z.eqb_spec b 0); cbn [bindr]; split; intros H; try reflexivity; try discriminate; auto. destruct H as [(H & _)|[(H & _)|(_ & H)]]; [discriminate|discriminate|contradiction].
  - split; [discriminate|]. intros [(H & _)|[(H & _)|(H & _)]]; discriminate.
  - split; [discriminate|]. intros [(H & _)|[(H & _)|(H & _)]]; discriminate.
  - split; [discriminate|]. intros [(H & _)|[(H & _)|(H & _)]]; discriminate.
  - split; [discriminate|]. intros [(H & _)|[(H & _)|(H & _)]]; discriminate.
  - split; [discriminate|]. intros [(H & _)|[(H & _)|(H & _)]]; discriminate.
Qed.
