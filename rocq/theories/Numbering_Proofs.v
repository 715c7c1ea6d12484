From Coq Require Import String Ascii List ZArith Bool Lia.
From Coq Require Import ZifyBool ZifyNat.
From Verif Require Import Base Numbering_Model Numbering_Spec.
Import ListNotations.
Open Scope Z_scope.
Ltac Zify.zify_post_hook ::= Z.div_mod_to_equations.

(** * Roman numerals *)

Lemma roman_read_app s t num prev :
  roman_read (s ++ t) num prev =
  (let! (n, p) := roman_read s num prev in roman_read t n p).
Proof.
  revert num prev. induction s as [|c s IH]; intros; simpl; [reflexivity|].
  destruct (roman_value c); simpl; [|reflexivity].
  destruct (a <? prev); apply IH.
Qed.

Lemma roman_read_Ms k num prev :
  prev <= 1000 ->
  exists p, p <= 1000 /\
  roman_read (rev (str_times (txt "M") (Z.of_nat k))) num prev = Ok (num + 1000 * Z.of_nat k, p).
Proof.
  unfold str_times. rewrite Nat2Z.id.
  induction k as [|k IH]; intros Hp.
  - exists prev. split; [lia|]. simpl. do 2 f_equal. lia.
  - change (concat (repeat (txt "M") (S k))) with ("M"%char :: concat (repeat (txt "M") k)).
    destruct (IH Hp) as (p & Hp' & E).
    exists 1000. split; [lia|].
    match goal with |- context [rev (?c :: ?x)] => change (rev (c :: x)) with (rev x ++ [c]) end.
    rewrite roman_read_app, E. cbn [bindr roman_read roman_value].
    destruct (1000 <? p) eqn:F; [lia|]. do 2 f_equal. lia.
Qed.

Definition roman_small_ok (r : Z) : bool :=
  match roman_read (rev (roman_loop (tl roman_numerals) r)) 0 0 with
  | Ok (n, p) => (n =? r) && (p <=? 1000)
  | Err _ => false
  end.

Lemma roman_small_all : forallb (fun n => roman_small_ok (Z.of_nat n)) (seq 0 1000) = true.
Proof. vm_compute. reflexivity. Qed.

Lemma roman_small r : 0 <= r < 1000 ->
  exists p, p <= 1000 /\ roman_read (rev (roman_loop (tl roman_numerals) r)) 0 0 = Ok (r, p).
Proof.
  intros H.
  assert (E := roman_small_all). rewrite forallb_forall in E.
  specialize (E (Z.to_nat r)). rewrite in_seq in E.
  specialize (E ltac:(lia)). rewrite Z2Nat.id in E by lia.
  unfold roman_small_ok in E.
  destruct (roman_read _ 0 0) as [[n p]|]; [|discriminate].
  exists p. split; [lia|]. do 2 f_equal. lia.
Qed.

Definition has_value (c : ascii) : Prop := exists v, roman_value c = Ok v.

Lemma has_value_upper c : has_value c -> upper_char c = c /\ upper_char (lower_char c) = c.
Proof.
  intros [v H].
  destruct c as [b0 b1 b2 b3 b4 b5 b6 b7].
  destruct b0, b1, b2, b3, b4, b5, b6, b7; try discriminate H; split; reflexivity.
Qed.

Lemma roman_table_letters :
  Forall (fun p => Forall has_value (fst p)) roman_numerals.
Proof. repeat constructor; eexists; reflexivity. Qed.

Lemma roman_loop_letters table n :
  Forall (fun p => Forall has_value (fst p)) table ->
  Forall has_value (roman_loop table n).
Proof.
  intros H. revert n. induction H as [|[c k] t Hc _ IH]; intros; simpl; [constructor|].
  apply Forall_app. split; [|apply IH].
  unfold str_times. apply Forall_concat. apply Forall_forall. intros x Hx.
  apply repeat_spec in Hx. subst. exact Hc.
Qed.

Lemma map_id_Forall {A} (f : A -> A) l : Forall (fun x => f x = x) l -> map f l = l.
Proof. induction 1; simpl; congruence. Qed.

Lemma upper_roman n : upper (roman_loop roman_numerals n) = roman_loop roman_numerals n.
Proof.
  apply map_id_Forall. eapply Forall_impl; [|apply roman_loop_letters, roman_table_letters].
  intros c Hc. now apply has_value_upper.
Qed.

Lemma upper_lower_roman n : upper (lower (roman_loop roman_numerals n)) = roman_loop roman_numerals n.
Proof.
  unfold upper, lower. rewrite map_map. apply map_id_Forall.
  eapply Forall_impl; [|apply roman_loop_letters, roman_table_letters].
  intros c Hc. now apply has_value_upper.
Qed.

Lemma roman_read_all n : 1 <= n ->
  exists p, roman_read (rev (roman_loop roman_numerals n)) 0 0 = Ok (n, p).
Proof.
  intros Hn.
  change (roman_loop roman_numerals n) with
    (str_times (txt "M") (n / 1000) ++ roman_loop (tl roman_numerals) (n mod 1000)).
  rewrite rev_app_distr, roman_read_app.
  destruct (roman_small (n mod 1000)) as (p & Hp & E); [lia|].
  rewrite E. cbn [bindr].
  destruct (roman_read_Ms (Z.to_nat (n / 1000)) (n mod 1000) p Hp) as (p' & _ & E').
  rewrite Z2Nat.id in E' by lia. rewrite E'. exists p'. do 2 f_equal. lia.
Qed.

Lemma roman_roundtrip n s : int2roman n = Ok s ->
  roman2int s = Ok n /\ roman2int (lower s) = Ok n.
Proof.
  unfold int2roman. destruct (n <? 1) eqn:E; [discriminate|]. intros H.
  assert (s = roman_loop roman_numerals n) as -> by congruence.
  unfold roman2int. rewrite upper_roman, upper_lower_roman.
  destruct (roman_read_all n ltac:(lia)) as [p ->]. split; reflexivity.
Qed.

Lemma int2roman_domain n :
  (n < 1 -> int2roman n = Err ValueError) /\ (1 <= n -> exists s, int2roman n = Ok s).
Proof.
  unfold int2roman. destruct (n <? 1) eqn:E; split; intros; try lia; eauto.
Qed.

Lemma int2roman_inj n m s : int2roman n = Ok s -> int2roman m = Ok s -> n = m.
Proof.
  intros Hn Hm. apply roman_roundtrip in Hn. apply roman_roundtrip in Hm.
  destruct Hn as [Hn _], Hm as [Hm _]. rewrite Hn in Hm. now injection Hm.
Qed.

Lemma roman_read_error s num prev :
  (Forall has_value s -> exists r, roman_read s num prev = Ok r) /\
  (~ Forall has_value s -> roman_read s num prev = Err KeyError).
Proof.
  revert num prev. induction s as [|c s IH]; intros; simpl.
  - split; [eauto|]. intros H. destruct H. constructor.
  - destruct (roman_value c) as [v|e] eqn:E; simpl.
    + split.
      * intros H. inversion H; subst. destruct (v <? prev); now apply IH.
      * intros H. assert (~ Forall has_value s).
        { intros F. apply H. constructor; [|exact F]. eexists; eassumption. }
        destruct (v <? prev); now apply IH.
    + split.
      * intros H. inversion H as [|? ? [v Hv]]; subst. congruence.
      * intros _. unfold roman_value in E.
        destruct c as [b0 b1 b2 b3 b4 b5 b6 b7].
        destruct b0, b1, b2, b3, b4, b5, b6, b7; congruence.
Qed.

Lemma roman2int_error s :
  roman2int s = Err KeyError <-> Exists (fun c => ~ has_value (upper_char c)) s.
Proof.
  unfold roman2int.
  assert (D : forall c, has_value c \/ ~ has_value c).
  { intros c. unfold has_value. destruct (roman_value c) eqn:E; [left; eauto|].
    right. intros [v Hv]. congruence. }
  destruct (Forall_Exists_dec (fun c => has_value (upper_char c))
     ltac:(intros c; unfold has_value; destruct (roman_value (upper_char c)) eqn:E;
           [left; eauto|right; intros [v Hv]; congruence]) s) as [F|F].
  - assert (G : Forall has_value (rev (upper s))).
    { apply Forall_rev. unfold upper. now apply Forall_map. }
    destruct (proj1 (roman_read_error _ 0 0) G) as [[a b] ->]. simpl.
    split; [discriminate|]. intros X. apply Exists_exists in X. destruct X as (c & Hc & Hn).
    rewrite Forall_forall in F. destruct (Hn (F c Hc)).
  - assert (G : ~ Forall has_value (rev (upper s))).
    { intros G. apply Forall_rev in G. rewrite rev_involutive in G.
      unfold upper in G. rewrite Forall_map in G.
      apply Exists_exists in F. destruct F as (c & Hc & Hn).
      rewrite Forall_forall in G. destruct (Hn (G c Hc)). }
    rewrite (proj2 (roman_read_error _ 0 0) G). simpl. split; [|reflexivity]. intros _. exact F.
Qed.

(** * Letters *)

Lemma index_of_range c chars i : index_of c chars = Ok i ->
  0 <= i < Z.of_nat (List.length chars) /\ nth_error chars (Z.to_nat i) = Some c.
Proof.
  revert i. induction chars as [|x r IH]; simpl; intros i; [discriminate|].
  destruct (Ascii.eqb x c) eqn:E.
  - intros [= <-]. apply Ascii.eqb_eq in E. subst. split; [lia|reflexivity].
  - destruct (index_of c r) as [j|]; simpl; [|discriminate]. intros [= <-].
    destruct (IH j eq_refl) as [H1 H2]. split; [lia|].
    replace (Z.to_nat (j + 1)) with (S (Z.to_nat j)) by lia. exact H2.
Qed.

Lemma index_of_in c chars : In c chars <-> exists i, index_of c chars = Ok i.
Proof.
  induction chars as [|x r IH]; simpl.
  - split; [easy|]. intros [i H]. discriminate.
  - destruct (Ascii.eqb x c) eqn:E.
    + apply Ascii.eqb_eq in E. subst. split; eauto.
    + apply Ascii.eqb_neq in E. destruct (index_of c r); simpl; split; intros H.
      * eauto.
      * right. apply IH. eauto.
      * destruct H as [H|H]; [easy|]. apply IH in H. destruct H. discriminate.
      * destruct H. discriminate.
Qed.

Lemma index_of_err c chars : ~ In c chars -> index_of c chars = Err ValueError.
Proof.
  induction chars as [|x r IH]; simpl; intros H; [reflexivity|].
  destruct (Ascii.eqb x c) eqn:E.
  - apply Ascii.eqb_eq in E. tauto.
  - rewrite IH by tauto. reflexivity.
Qed.

Lemma index_of_nth chars i c : NoDup chars -> nth_error chars i = Some c ->
  index_of c chars = Ok (Z.of_nat i).
Proof.
  revert i. induction chars as [|x r IH]; intros i ND; [destruct i; discriminate|].
  inversion ND; subst. destruct i as [|i]; simpl.
  - intros [= ->]. now rewrite Ascii.eqb_refl.
  - intros Hn. destruct (Ascii.eqb x c) eqn:E.
    + apply Ascii.eqb_eq in E. subst. apply nth_error_In in Hn. contradiction.
    + rewrite (IH i) by assumption. simpl. f_equal. lia.
Qed.

(** Positional value of digits, most significant first (digit d counts d+1). *)
Fixpoint bij_val (k : Z) (ds : list Z) (acc : Z) : Z :=
  match ds with [] => acc | d :: r => bij_val k r (acc * k + (d + 1)) end.

Lemma bij_val_app k a b acc : bij_val k (a ++ b) acc = bij_val k b (bij_val k a acc).
Proof. revert acc. induction a; intros; simpl; auto. Qed.

Lemma letter_loop_acc fuel k n acc :
  letter_loop fuel k n acc =
  (let! l := letter_loop fuel k n [] in Ok (acc ++ l)).
Proof.
  revert n acc. induction fuel as [|f IH]; intros; simpl.
  - destruct (n >? 0); [destruct (k =? 0); reflexivity|]. simpl. now rewrite app_nil_r.
  - destruct (n >? 0); [|simpl; now rewrite app_nil_r].
    destruct (k =? 0); [reflexivity|].
    rewrite IH. rewrite (IH _ [_]). destruct (letter_loop f k _ []); simpl; [|reflexivity].
    now rewrite <- app_assoc.
Qed.

Lemma letter_loop_spec k : 1 <= k -> forall fuel n, 0 <= n <= Z.of_nat fuel ->
  exists ds, letter_loop fuel k n [] = Ok ds /\ Forall (fun d => 0 <= d < k) ds /\
             bij_val k (rev ds) 0 = n.
Proof.
  intros Hk. induction fuel as [|f IH]; intros n Hn; simpl.
  - replace n with 0 by lia. exists []. repeat split; constructor.
  - destruct (n >? 0) eqn:E; [|exists []; replace n with 0 by lia; repeat split; constructor].
    destruct (k =? 0) eqn:E2; [lia|].
    rewrite letter_loop_acc.
    assert (0 <= (n-1)/k <= n - 1).
    { split; [apply Z.div_pos; lia|]. apply Z.div_le_upper_bound; nia. }
    destruct (IH ((n-1)/k) ltac:(lia)) as (ds & -> & F & V). simpl.
    exists ((n-1) mod k :: ds). split; [reflexivity|]. split.
    + constructor; [apply Z.mod_pos_bound; lia|exact F].
    + simpl. rewrite bij_val_app, V. simpl.
      rewrite (Z.mul_comm ((n-1)/k) k). pose proof (Z.div_mod (n-1) k). lia.
Qed.

(** Uniqueness of bijective numeration. *)
Lemma bij_val_nonneg k ds acc : 1 <= k -> 0 <= acc -> Forall (fun d => 0 <= d < k) ds ->
  0 <= bij_val k ds acc.
Proof.
  intros Hk. revert acc. induction ds; intros acc Ha F; simpl; [exact Ha|].
  inversion F; subst. apply IHds; [nia|assumption].
Qed.

Lemma bij_val_rev_inj k : 1 <= k -> forall a b,
  Forall (fun d => 0 <= d < k) a -> Forall (fun d => 0 <= d < k) b ->
  bij_val k (rev a) 0 = bij_val k (rev b) 0 -> a = b.
Proof.
  intros Hk. induction a as [|x a IH]; intros b Fa Fb; simpl.
  - destruct b as [|y b]; [reflexivity|]. simpl. rewrite bij_val_app. simpl.
    inversion Fb; subst. intros E.
    pose proof (bij_val_nonneg k (rev b) 0 Hk ltac:(lia) ltac:(now apply Forall_rev)). nia.
  - inversion Fa; subst. destruct b as [|y b]; simpl; rewrite ?bij_val_app; simpl.
    + intros E. pose proof (bij_val_nonneg k (rev a) 0 Hk ltac:(lia) ltac:(now apply Forall_rev)). nia.
    + inversion Fb; subst. intros E.
      assert (x = y /\ bij_val k (rev a) 0 = bij_val k (rev b) 0) as [-> E2].
      { set (A := bij_val k (rev a) 0) in *. set (B := bij_val k (rev b) 0) in *.
        assert (A * k + x = B * k + y) by lia.
        assert (A = B) by nia. subst. split; nia. }
      f_equal. apply IH; assumption.
Qed.

Lemma letter_read_spec chars ds acc :
  NoDup chars -> Forall (fun d => 0 <= d < Z.of_nat (List.length chars)) ds ->
  letter_read (flat_map (char_at chars) ds) chars acc
  = Ok (bij_val (Z.of_nat (List.length chars)) ds acc).
Proof.
  intros ND F. revert acc. induction F as [|d ds Hd F IH]; intros; simpl; [reflexivity|].
  unfold char_at at 1. destruct (nth_error chars (Z.to_nat d)) as [x|] eqn:E.
  - simpl. rewrite (index_of_nth _ _ _ ND E). simpl. rewrite Z2Nat.id by lia. apply IH.
  - apply nth_error_None in E. lia.
Qed.

Lemma letter_roundtrip chars n :
  NoDup chars -> chars <> [] -> 0 <= n ->
  exists s, int2letter n chars = Ok s /\ letter2int s chars = Ok n /\ Forall (fun c => In c chars) s.
Proof.
  intros ND NE Hn. unfold int2letter.
  assert (Hk : 1 <= Z.of_nat (List.length chars)) by (destruct chars; [easy|simpl; lia]).
  destruct (letter_loop_spec _ Hk (Z.to_nat n) n ltac:(lia)) as (ds & -> & F & V). simpl.
  eexists. split; [reflexivity|].
  unfold letter2int. rewrite letter_read_spec; [|assumption|now apply Forall_rev].
  split; [now rewrite V|].
  apply Forall_forall. intros c Hc. apply in_flat_map in Hc. destruct Hc as (d & _ & Hd).
  unfold char_at in Hd.
  destruct (nth_error chars (Z.to_nat d)) eqn:E; [|destruct Hd].
  destruct Hd as [<-|[]]. eapply nth_error_In; eassumption.
Qed.

Lemma letter_read_digits s chars :
  Forall (fun c => In c chars) s ->
  exists ds, Forall (fun d => 0 <= d < Z.of_nat (List.length chars)) ds /\
    s = flat_map (char_at chars) ds.
Proof.
  induction 1 as [|c s Hc _ (ds & F & ->)].
  - exists []. split; [constructor|reflexivity].
  - apply index_of_in in Hc. destruct Hc as [i Hi]. apply index_of_range in Hi.
    destruct Hi as [H1 H2]. exists (i :: ds). split; [now constructor|].
    simpl.
    replace (char_at chars i) with [c] by (unfold char_at; now rewrite H2). reflexivity.
Qed.

Lemma letter_roundtrip2 chars s :
  NoDup chars -> Forall (fun c => In c chars) s ->
  exists n, 0 <= n /\ letter2int s chars = Ok n /\ int2letter n chars = Ok s.
Proof.
  intros ND Fs. destruct (letter_read_digits s chars Fs) as (ds & F & E).
  destruct chars as [|c0 cr] eqn:EC.
  - destruct s as [|c s]; [|inversion Fs; subst; contradiction].
    exists 0. split; [lia|]. split; reflexivity.
  - rewrite <- EC in *.
    assert (Hk : 1 <= Z.of_nat (List.length chars)) by (rewrite EC; simpl; lia).
    exists (bij_val (Z.of_nat (List.length chars)) ds 0).
    pose proof (bij_val_nonneg _ ds 0 Hk ltac:(lia) F) as Hp.
    split; [exact Hp|]. split.
    + unfold letter2int. rewrite E. now apply letter_read_spec.
    + unfold int2letter.
      destruct (letter_loop_spec _ Hk (Z.to_nat (bij_val (Z.of_nat (List.length chars)) ds 0))
                  (bij_val (Z.of_nat (List.length chars)) ds 0) ltac:(lia)) as (ds' & -> & F' & V).
      simpl. do 1 f_equal. rewrite E. f_equal.
      rewrite <- (rev_involutive ds) in V.
      apply bij_val_rev_inj in V; [|assumption|assumption|now apply Forall_rev].
      subst ds'. apply rev_involutive.
Qed.

Lemma letter_read_error s chars acc :
  ~ Forall (fun c => In c chars) s -> letter_read s chars acc = Err ValueError.
Proof.
  revert acc. induction s as [|c s IH]; intros acc H; [destruct H; constructor|]. simpl.
  destruct (in_dec ascii_dec c chars) as [I|I].
  - apply index_of_in in I as I'. destruct I' as [i ->]. simpl. apply IH.
    intros F. apply H. now constructor.
  - now rewrite index_of_err.
Qed.

Lemma letter2int_error s chars :
  NoDup chars ->
  (letter2int s chars = Err ValueError <-> Exists (fun c => ~ In c chars) s).
Proof.
  intros ND.
  destruct (Forall_Exists_dec (fun c => In c chars) (fun c => in_dec ascii_dec c chars) s) as [F|F].
  - destruct (letter_roundtrip2 chars s ND F) as (n & _ & -> & _).
    split; [discriminate|]. intros X. apply Exists_exists in X. destruct X as (c & Hc & Hn).
    rewrite Forall_forall in F. destruct (Hn (F c Hc)).
  - split; [intros _; exact F|]. intros _. apply letter_read_error.
    intros G. apply Exists_exists in F. destruct F as (c & Hc & Hn).
    rewrite Forall_forall in G. destruct (Hn (G c Hc)).
Qed.

(** Order. *)
Lemma bij_val_len k ds acc : 1 <= k -> Forall (fun d => 0 <= d < k) ds ->
  forall r, r = k ^ Z.of_nat (List.length ds) ->
  acc * r <= bij_val k ds acc.
Proof.
  intros Hk F. revert acc. induction F as [|d ds Hd F IH]; intros acc r ->; simpl bij_val.
  - simpl. lia.
  - specialize (IH (acc * k + (d+1)) _ eq_refl).
    simpl List.length. rewrite Nat2Z.inj_succ, Z.pow_succ_r by lia.
    assert (0 < k ^ Z.of_nat (List.length ds)) by (apply Z.pow_pos_nonneg; lia).
    nia.
Qed.

Lemma bij_val_lt_step k a b : 1 <= k ->
  Forall (fun d => 0 <= d < k) a -> Forall (fun d => 0 <= d < k) b ->
  List.length a = List.length b -> forall x y, x < y -> bij_val k a x < bij_val k b y.
Proof.
  intros Hk Fa. revert b. induction Fa as [|d a Hd Fa IH]; intros b Fb L x y Hxy.
  - destruct b; [exact Hxy|discriminate].
  - destruct b as [|e b]; [discriminate|]. inversion Fb; subst. simpl.
    apply IH; [assumption|simpl in L; lia|]. nia.
Qed.

Lemma bij_val_shorter k a b : 1 <= k ->
  Forall (fun d => 0 <= d < k) a -> Forall (fun d => 0 <= d < k) b ->
  (List.length a < List.length b)%nat -> forall x y, 0 <= x <= y -> bij_val k a x < bij_val k b y.
Proof.
  intros Hk Fa Fb. revert a Fa. induction Fb as [|e b He Fb IH]; intros a Fa L x y Hxy.
  - simpl in L. lia.
  - destruct (Nat.eq_dec (List.length a) (List.length b)) as [E|E].
    + simpl. apply bij_val_lt_step; try assumption. nia.
    + simpl. apply IH; [assumption|simpl in L; lia|]. nia.
Qed.

Lemma letters_len_digits chars ds : Forall (fun d => 0 <= d < Z.of_nat (List.length chars)) ds ->
         List.length (flat_map (char_at chars) ds) = List.length ds.
Proof.
  induction 1 as [|d ds Hd _ IHd]; [reflexivity|]. simpl. unfold char_at at 1.
  destruct (nth_error chars (Z.to_nat d)) eqn:E; [|apply nth_error_None in E; lia].
  simpl. now rewrite IHd.
Qed.

Lemma bij_val_lex k chars a b : k = Z.of_nat (List.length chars) -> 1 <= k -> NoDup chars ->
  Forall (fun c => In c chars) a -> Forall (fun c => In c chars) b ->
  List.length a = List.length b -> lex_lt chars a b ->
  forall x n m, letter_read a chars x = Ok n -> letter_read b chars x = Ok m -> n < m.
Proof.
  intros -> Hk ND Fa. revert b. induction Fa as [|c a Hc Fa IH]; intros b Fb L Hl x n m.
  - destruct b; simpl in Hl; contradiction.
  - destruct b as [|e b]; [contradiction|]. inversion Fb; subst. simpl.
    simpl in Hl. destruct Hl as [(i & j & Ei & Ej & Hij)|[<- Hl]].
    + rewrite Ei, Ej. simpl.
      destruct (letter_read_digits a chars Fa) as (da & Fda & ->).
      destruct (letter_read_digits b chars H2) as (db & Fdb & ->).
      rewrite !letter_read_spec by assumption. intros [= <-] [= <-].
      apply bij_val_lt_step; try assumption; [|lia].
      simpl in L. rewrite !letters_len_digits in L by assumption. lia.
    + apply index_of_in in Hc. destruct Hc as [i ->]. simpl.
      apply IH; [assumption| simpl in L; lia | assumption].
Qed.

Lemma shortlex_mono chars a b n m : NoDup chars ->
  letter2int a chars = Ok n -> letter2int b chars = Ok m ->
  shortlex chars a b -> n < m.
Proof.
  intros ND Ha Hb Hs.
  assert (G : forall s v, letter2int s chars = Ok v -> Forall (fun c => In c chars) s).
  { intros s v H. destruct (Forall_Exists_dec (fun c => In c chars) (fun c => in_dec ascii_dec c chars) s) as [F|F]; [exact F|].
    apply letter2int_error in F; [congruence|assumption]. }
  pose proof (G _ _ Ha) as Fa. pose proof (G _ _ Hb) as Fb.
  destruct b as [|cb b'].
  { destruct Hs as [H|[_ H]]; [simpl in H; lia|destruct a; contradiction]. }
  assert (Hk : 1 <= Z.of_nat (List.length chars)).
  { inversion Fb; subst. destruct chars; [contradiction|simpl; lia]. }
  destruct Hs as [Hlt|[Hl Hx]].
  - destruct (letter_read_digits a chars Fa) as (da & Fda & Ea).
    destruct (letter_read_digits _ chars Fb) as (db & Fdb & Eb).
    unfold letter2int in *. rewrite Ea in Ha. rewrite Eb in Hb.
    rewrite letter_read_spec in Ha, Hb by assumption.
    injection Ha as <-. injection Hb as <-.
    apply bij_val_shorter; try assumption; [|lia].
    rewrite Ea, Eb, !letters_len_digits in Hlt by assumption. exact Hlt.
  - eapply (bij_val_lex _ chars a (cb :: b') eq_refl Hk ND Fa Fb Hl Hx 0); [exact Ha|exact Hb].
Qed.

Lemma lex_total chars a b :
  Forall (fun c => In c chars) a -> Forall (fun c => In c chars) b ->
  List.length a = List.length b -> a = b \/ lex_lt chars a b \/ lex_lt chars b a.
Proof.
  intros Fa. revert b. induction Fa as [|c a Hc Fa IH]; intros b Fb L.
  - destruct b; [now left|discriminate].
  - destruct b as [|e b]; [discriminate|]. inversion Fb; subst.
    destruct (ascii_dec c e) as [->|N].
    + destruct (IH b H2 ltac:(simpl in L; lia)) as [->|[H|H]]; [now left| |].
      * right. left. simpl. now right.
      * right. right. simpl. now right.
    + apply index_of_in in Hc as [i Hi]. apply index_of_in in H1 as [j Hj].
      destruct (Z.lt_trichotomy i j) as [H|[H|H]].
      * right. left. simpl. left. eauto.
      * subst. apply index_of_range in Hi. apply index_of_range in Hj.
        destruct Hi as [_ Hi], Hj as [_ Hj]. congruence.
      * right. right. simpl. left. eauto.
Qed.

Lemma int2letter_shortlex chars n m a b : NoDup chars -> chars <> [] -> 0 <= n -> 0 <= m ->
  int2letter n chars = Ok a -> int2letter m chars = Ok b ->
  (n < m <-> shortlex chars a b).
Proof.
  intros ND NE Hn Hm Ea Eb.
  destruct (letter_roundtrip chars n ND NE Hn) as (a' & Ea' & Ra & Fa).
  destruct (letter_roundtrip chars m ND NE Hm) as (b' & Eb' & Rb & Fb).
  rewrite Ea in Ea'. injection Ea' as <-. rewrite Eb in Eb'. injection Eb' as <-.
  split.
  - intros Hlt.
    destruct (Nat.lt_trichotomy (List.length a) (List.length b)) as [L|[L|L]].
    + now left.
    + destruct (lex_total chars a b Fa Fb L) as [->|[H|H]].
      * rewrite Ra in Rb. injection Rb as ->. lia.
      * right. now split.
      * assert (m < n); [|lia]. eapply (shortlex_mono chars b a); eauto. right. split; [lia|exact H].
    + assert (m < n); [|lia]. eapply (shortlex_mono chars b a); eauto. now left.
  - intros Hs. eapply shortlex_mono; eauto.
Qed.

(** * English words *)

Lemma read_words_app a b total cur :
  read_words (a ++ b) total cur =
  match b with
  | [] => read_words a total cur
  | _ => read_words (a ++ b) total cur
  end.
Proof. destruct b; [now rewrite app_nil_r|reflexivity]. Qed.

(** State after reading words. *)
Fixpoint read_state (ws : list word) (st : Z * Z) : Z * Z :=
  match ws with
  | [] => st
  | w :: r =>
      let '(total, cur) := st in
      read_state r
        (match w with
         | WOnes i => (total, cur + i)
         | WTens i => (total, cur + 10 * (i + 2))
         | WHundred => (total, cur * 100)
         | WThousand => (total + cur * 1000, 0)
         | WMillion => ((total + cur) * 1000000, 0)
         end)
  end.

Lemma read_words_state ws total cur :
  read_words ws total cur = fst (read_state ws (total, cur)) + snd (read_state ws (total, cur)).
Proof.
  revert total cur. induction ws as [|w ws IH]; intros; simpl; [reflexivity|].
  destruct w; apply IH.
Qed.

Lemma read_state_app a b st : read_state (a ++ b) st = read_state b (read_state a st).
Proof.
  revert st. induction a as [|w a IH]; intros [t c]; simpl; [reflexivity|]. apply IH.
Qed.

Lemma below1000_state n t : 0 <= n < 1000 -> read_state (below1000 n) (t, 0) = (t, n).
Proof.
  intros H. unfold below1000.
  destruct (n >=? 100) eqn:E1; destruct (_ >=? 20) eqn:E2; destruct (_ =? 0) eqn:E3;
    cbn [read_state app]; f_equal; lia.
Qed.

Lemma words_of_state fuel n : fuel <> O -> 0 <= n < 2 ^ Z.of_nat fuel ->
  exists ws, words_of fuel n = Some ws /\
    fst (read_state ws (0, 0)) + snd (read_state ws (0, 0)) = n /\
    (n < 1000 -> forall t, read_state ws (t, 0) = (t, n)).
Proof.
  revert n. induction fuel as [|f IH]; intros n Hf H; [easy|]. clear Hf.
  assert (Hf : n >= 1000 -> f <> O).
  { intros Hn ->. change (2 ^ Z.of_nat 1) with 2 in H. lia. }
  rewrite Nat2Z.inj_succ, Z.pow_succ_r in H by lia.
  cbn [words_of].
  set (m := if n >=? 1000000 then _ else _).
  set (n1 := if n >=? 1000000 then n mod 1000000 else n).
  assert (Hm : exists wm, m = Some wm /\ read_state wm (0,0) = (n - n1, 0)
                          /\ (n < 1000000 -> wm = []) /\ 0 <= n1 < 1000000).
  { subst m n1. destruct (n >=? 1000000) eqn:E.
    - destruct (IH (n / 1000000) ltac:(apply Hf; lia) ltac:(lia)) as (ws & -> & V & _).
      eexists. split; [reflexivity|]. rewrite read_state_app.
      destruct (read_state ws (0, 0)) as [a b]. simpl in *. split; [f_equal; lia|]. split; [lia|lia].
    - exists []. repeat split; try lia. simpl. f_equal; lia. }
  set (t := if n1 >=? 1000 then _ else _).
  set (n2 := if n1 >=? 1000 then n1 mod 1000 else n1).
  destruct Hm as (wm & -> & Vm & Nm & Bm).
  assert (Ht : exists wt, t = Some wt /\ (forall T, read_state wt (T,0) = (T + (n1 - n2), 0))
                          /\ (n1 < 1000 -> wt = []) /\ 0 <= n2 < 1000).
  { subst t n2. destruct (n1 >=? 1000) eqn:E.
    - assert (n1 <= n) by (subst n1; destruct (n >=? 1000000); lia).
      destruct (IH (n1 / 1000) ltac:(apply Hf; lia) ltac:(lia)) as (ws & -> & _ & V).
      eexists. split; [reflexivity|]. split; [|split; lia].
      intros T. rewrite read_state_app, V by lia. simpl. f_equal; lia.
    - exists []. repeat split; try lia. intros T. simpl. f_equal; lia. }
  destruct Ht as (wt & -> & Vt & Nt & Bt).
  eexists. split; [reflexivity|]. split.
  - rewrite !read_state_app, Vm, Vt, below1000_state by lia. simpl. lia.
  - intros Hs T. assert (wm = []) as -> by (apply Nm; lia).
    assert (n1 = n) by (subst n1; destruct (n >=? 1000000) eqn:E; lia).
    assert (wt = []) as -> by (apply Nt; lia). simpl.
    assert (n2 = n) by (subst n2; destruct (n1 >=? 1000) eqn:E; lia).
    replace n2 with n. apply below1000_state. lia.
Qed.

Lemma below1000_usable n : 0 <= n < 1000 -> Forall usable (below1000 n).
Proof.
  intros H. unfold below1000.
  destruct (n >=? 100) eqn:E1; destruct (_ >=? 20) eqn:E2; destruct (_ =? 0) eqn:E3;
    simpl; repeat constructor; simpl; lia.
Qed.

Lemma words_of_usable fuel n ws : 0 <= n -> words_of fuel n = Some ws -> Forall usable ws.
Proof.
  revert n ws. induction fuel as [|f IH]; intros n ws H; simpl; [discriminate|].
  set (m := if n >=? 1000000 then _ else _).
  set (n1 := if n >=? 1000000 then n mod 1000000 else n).
  assert (B1 : 0 <= n1) by (subst n1; destruct (n >=? 1000000); lia).
  assert (Hm : forall wm, m = Some wm -> Forall usable wm).
  { subst m. intros wm. destruct (n >=? 1000000).
    - destruct (words_of f (n / 1000000)) eqn:E; [|discriminate]. intros [= <-].
      apply Forall_app. split; [|repeat constructor]. eapply IH; [|exact E]. lia.
    - intros [= <-]. constructor. }
  set (t := if n1 >=? 1000 then _ else _).
  set (n2 := if n1 >=? 1000 then n1 mod 1000 else n1).
  assert (B2 : 0 <= n2 < 1000) by (subst n2; destruct (n1 >=? 1000) eqn:E; lia).
  assert (Ht : forall wt, t = Some wt -> Forall usable wt).
  { subst t. intros wt. destruct (n1 >=? 1000).
    - destruct (words_of f (n1 / 1000)) eqn:E; [|discriminate]. intros [= <-].
      apply Forall_app. split; [|repeat constructor]. eapply IH; [|exact E]. lia.
    - intros [= <-]. constructor. }
  destruct m as [wm|]; [|discriminate]. destruct t as [wt|]; [|discriminate].
  intros [= <-]. rewrite !Forall_app. repeat split; auto using below1000_usable.
Qed.

Lemma words_total n : 0 <= n ->
  exists ws, words_of (S (Z.to_nat (Z.log2 n))) n = Some ws /\
             value_of_words ws = n /\ Forall usable ws.
Proof.
  intros H. destruct (words_of_state (S (Z.to_nat (Z.log2 n))) n) as (ws & E & V & _).
  - easy.
  - rewrite Nat2Z.inj_succ, Z2Nat.id by apply Z.log2_nonneg.
    destruct (Z.eq_dec n 0) as [->|]; [simpl; lia|].
    destruct (Z.log2_spec n); lia.
  - exists ws. split; [exact E|]. split.
    + unfold value_of_words. now rewrite read_words_state.
    + eapply words_of_usable; eassumption.
Qed.

Lemma titled_split a b r s : titled a -> titled b ->
  (r = [] \/ exists c r', r = c :: r' /\ is_upper c) ->
  (s = [] \/ exists c s', s = c :: s' /\ is_upper c) ->
  a ++ r = b ++ s -> a = b /\ r = s.
Proof.
  intros (ca & la & -> & Ua & La) (cb & lb & -> & Ub & Lb) Hr Hs. simpl.
  intros [= -> E].
  enough (la = lb /\ r = s) as [-> ->] by now split.
  clear Ua Ub. revert lb Lb E. induction La as [|x la Hx La IH]; intros lb Lb E.
  - destruct Lb as [|y lb Hy Lb]; [now split|]. simpl in E.
    destruct Hr as [->|(c & r' & -> & Hc)]; [discriminate|]. injection E as -> _.
    unfold is_upper, is_lower in *. lia.
  - destruct Lb as [|y lb Hy Lb]; simpl in E.
    + destruct Hs as [->|(c & s' & -> & Hc)]; [discriminate|]. injection E as -> _.
      unfold is_upper, is_lower in *. lia.
    + injection E as -> E. destruct (IH lb Lb E) as [-> ->]. now split.
Qed.

Lemma spell_head spell ws : good_spelling spell -> Forall usable ws ->
  flat_map spell ws = [] \/ exists c r, flat_map spell ws = c :: r /\ is_upper c.
Proof.
  intros [G _] F. destruct F as [|w ws Hw F]; [now left|]. right.
  destruct (G w Hw) as [(c & r & E & U & _) _]. simpl. rewrite E. simpl. eexists _, _. split; [reflexivity|exact U].
Qed.

Lemma spell_inj spell a b : good_spelling spell -> Forall usable a -> Forall usable b ->
  flat_map spell a = flat_map spell b -> a = b.
Proof.
  intros G Fa. revert b. induction Fa as [|w a Hw Fa IH]; intros b Fb.
  - destruct Fb as [|v b Hv Fb]; [reflexivity|]. simpl.
    destruct (proj1 G v Hv) as [(c & r & -> & _) _]. discriminate.
  - destruct Fb as [|v b Hv Fb]; simpl.
    + destruct (proj1 G w Hw) as [(c & r & -> & _) _]. discriminate.
    + intros E. apply titled_split in E.
      * destruct E as [E1 E2]. apply (proj2 G) in E1; [|assumption|assumption].
        subst. f_equal. now apply IH.
      * now apply G.
      * now apply G.
      * now apply spell_head.
      * now apply spell_head.
Qed.

Lemma titled_zero : titled (txt "Zero").
Proof.
  exists "Z"%char, (txt "ero"). split; [reflexivity|]. unfold is_upper, is_lower. split; [cbv; lia|].
  repeat constructor; cbv; lia.
Qed.

Lemma int2text_inj spell n m s : good_spelling spell -> 0 <= n -> 0 <= m ->
  int2text spell n = Ok s -> int2text spell m = Ok s -> n = m.
Proof.
  intros G Hn Hm. unfold int2text.
  destruct (words_total n Hn) as (wn & -> & Vn & Un).
  destruct (words_total m Hm) as (wm & -> & Vm & Um).
  intros E1 E2. injection E1 as E1. injection E2 as E2.
  assert (Z0 : forall ws, Forall usable ws ->
     match flat_map spell ws with [] => txt "Zero" | _ => flat_map spell ws end = txt "Zero" ->
     ws = []).
  { intros ws Fw. destruct Fw as [|w ws Hw Fw]; [reflexivity|]. simpl.
    destruct (proj1 G w Hw) as [T NZ].
    destruct T as (c & r & Es & Uc & Lr).
    rewrite Es. simpl. intros E. exfalso.
    assert (E' : (c :: r) ++ flat_map spell ws = txt "Zero" ++ []) by exact E.
    apply titled_split in E'.
    - destruct E' as [E' _]. rewrite <- Es in E'. contradiction.
    - exists c, r. auto.
    - apply titled_zero.
    - now apply spell_head.
    - now left. }
  rewrite <- Vn, <- Vm. f_equal.
  destruct wn as [|w1 wn']; [|destruct wm as [|w2 wm']].
  - simpl in E1. subst s. symmetry. now apply Z0.
  - simpl in E2. subst s. now apply Z0.
  - apply (spell_inj spell); try assumption.
    assert (N1 : flat_map spell (w1 :: wn') <> []).
    { simpl. inversion Un; subst. destruct (proj1 G w1) as [(c & r & -> & _) _]; [assumption|]. discriminate. }
    assert (N2 : flat_map spell (w2 :: wm') <> []).
    { simpl. inversion Um; subst. destruct (proj1 G w2) as [(c & r & -> & _) _]; [assumption|]. discriminate. }
    destruct (flat_map spell (w1 :: wn')); [easy|].
    destruct (flat_map spell (w2 :: wm')); [easy|]. congruence.
Qed.

Definition all_words : list word :=
  map (fun i => WOnes (Z.of_nat i)) (seq 1 19) ++ map (fun i => WTens (Z.of_nat i)) (seq 0 8)
  ++ [WHundred; WThousand; WMillion].

Lemma usable_in w : usable w -> In w all_words.
Proof.
  unfold all_words. rewrite !in_app_iff, !in_map_iff. destruct w; cbn [usable]; intros H; try (right; right; simpl; tauto).
  - left. exists (Z.to_nat i). rewrite in_seq. split; [f_equal|]; lia.
  - right. left. exists (Z.to_nat i). split; [f_equal; lia|]. apply in_seq. lia.
Qed.

Lemma english_good : good_spelling english.
Proof.
  assert (D : NoDup (map english all_words)).
  { assert (forall l : list str, NoDup (nodup (list_eq_dec ascii_dec) l)) by (intros; apply NoDup_nodup).
    specialize (H (map english all_words)).
    replace (nodup (list_eq_dec ascii_dec) (map english all_words)) with (map english all_words) in H
      by (vm_compute; reflexivity).
    exact H. }
  split.
  - intros w Hw. apply usable_in in Hw.
    assert (F : Forall (fun w => titled (english w) /\ english w <> txt "Zero") all_words).
    { unfold all_words. simpl.
      repeat (constructor; [split; [
        cbv [english]; simpl; eexists _, _; split; [reflexivity|];
        unfold is_upper, is_lower; split; [cbv; lia| repeat constructor; cbv; lia]
        | vm_compute; discriminate ]|]).
      constructor. }
    rewrite Forall_forall in F. now apply F.
  - intros v w Hv Hw E. apply usable_in in Hv. apply usable_in in Hw.
    clear -D Hv Hw E. induction all_words as [|x l IH]; [contradiction|].
    simpl in D. inversion D; subst.
    destruct Hv as [->|Hv], Hw as [->|Hw]; auto.
    + exfalso. apply H1. rewrite E. now apply in_map.
    + exfalso. apply H1. rewrite <- E. now apply in_map.
Qed.

(** * Statements used by the property file *)

Lemma has_value_letter c : has_value c <-> roman_letter c.
Proof.
  split.
  - intros [v H]. unfold roman_letter. destruct c as [b0 b1 b2 b3 b4 b5 b6 b7].
    destruct b0, b1, b2, b3, b4, b5, b6, b7; try discriminate H; simpl; tauto.
  - unfold roman_letter. simpl. intros H.
    repeat (destruct H as [<-|H]; [eexists; reflexivity|]). contradiction.
Qed.

Lemma roman2int_error_spec s :
  roman2int s = Err KeyError <-> Exists (fun c => ~ roman_letter (upper_char c)) s.
Proof.
  rewrite roman2int_error. split; intros H; eapply Exists_impl; try exact H;
    cbv beta; intros c; rewrite has_value_letter; auto.
Qed.

Lemma roman_total n : 1 <= n ->
  exists s, int2roman n = Ok s /\ roman2int s = Ok n /\ roman2int (lower s) = Ok n.
Proof.
  intros H. destruct (proj2 (int2roman_domain n) H) as [s Hs]. exists s.
  split; [exact Hs|]. now apply roman_roundtrip.
Qed.

Lemma int2roman_error n : int2roman n = Err ValueError <-> n < 1.
Proof.
  split; [|apply int2roman_domain]. intros E. destruct (Z.lt_ge_cases n 1) as [L|L]; [exact L|].
  destruct (proj2 (int2roman_domain n) L) as [s Hs]. congruence.
Qed.

Lemma int2text_total spell n : 0 <= n -> exists s, int2text spell n = Ok s.
Proof.
  intros H. unfold int2text. destruct (words_total n H) as (ws & -> & _). eauto.
Qed.

Lemma words_value n : 0 <= n ->
  exists ws, words_of (S (Z.to_nat (Z.log2 n))) n = Some ws /\ value_of_words ws = n.
Proof. intros H. destruct (words_total n H) as (ws & E & V & _). eauto. Qed.

Lemma int2text_denotes n s : 0 <= n -> int2text english n = Ok s -> denotes s n.
Proof.
  intros H. unfold int2text. destruct (words_total n H) as (ws & -> & V & U).
  intros E. injection E as E. unfold denotes.
  destruct ws as [|w ws].
  - left. split; [symmetry; exact E|]. rewrite <- V. reflexivity.
  - right. exists (w :: ws). split; [discriminate|]. split; [exact U|]. split; [|exact V].
    inversion U; subst. destruct (proj1 english_good w) as [(c & r & Ec & _) _]; [assumption|].
    cbn [flat_map]. rewrite Ec. reflexivity.
Qed.

Lemma denotes_unique s n m : denotes s n -> denotes s m -> n = m.
Proof.
  assert (Z0 : forall ws, Forall usable ws -> flat_map english ws = txt "Zero" -> ws = []).
  { intros ws U E. destruct U as [|w ws Hw U]; [reflexivity|]. exfalso.
    simpl in E. destruct (proj1 english_good w Hw) as [T NZ].
    assert (E' : english w ++ flat_map english ws = txt "Zero" ++ []) by (rewrite app_nil_r; exact E).
    apply titled_split in E'.
    - destruct E'; contradiction.
    - exact T.
    - apply titled_zero.
    - apply spell_head; [apply english_good|assumption].
    - now left. }
  intros [[-> ->]|(a & Na & Ua & -> & <-)] [[E ->]|(b & Nb & Ub & E & <-)].
  - reflexivity.
  - symmetry in E. apply Z0 in E; [contradiction|assumption].
  - apply Z0 in E; [contradiction|assumption].
  - apply (spell_inj english) in E; [now subst|apply english_good|assumption|assumption].
Qed.
