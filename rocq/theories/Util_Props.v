(** Theorems about newlines and comments: C83, C84. *)
From Coq Require Import String Ascii List ZArith Bool PeanoNat FinFun Lia ZifyBool ZifyNat.
From Verif Require Import Base Util_Model Util_Spec.
Import ListNotations.
Open Scope nat_scope.

Lemma un_induction (P : un -> Prop) : (forall h t sb st kids, Forall P kids -> P (UN h t sb st kids)) -> forall n, P n.
Proof. intros H. fix rec 1. intros [h t sb st kids]. apply H. induction kids as [|c kids IH]; constructor; [apply rec|exact IH]. Qed.
Lemma cn_induction (P : cn -> Prop) : (forall i c kids, Forall P kids -> P (CN i c kids)) -> forall n, P n.
Proof. intros H. fix rec 1. intros [i c kids]. apply H. induction kids as [|x kids IH]; constructor; [apply rec|exact IH]. Qed.

(** ** Searching *)
Lemma is_prefix_spec p s : is_prefix p s = true <-> exists b, s = p ++ b.
Proof.
  revert s. induction p as [|a p IH]; intros s; [split; [intros _; exists s; reflexivity|reflexivity]|]. destruct s as [|b s]; cbn [is_prefix]; [split; [discriminate|intros (b & E); discriminate]|].
  rewrite andb_true_iff, Ascii.eqb_eq, IH. split; [intros (-> & r & ->); exists r; reflexivity|intros (r & [= -> ->]); split; [reflexivity|exists r; reflexivity]].
Qed.
(** the rest of the text from the position i *)
Lemma find_from_spec sep start : forall text pre, match find_from sep text (length pre) start with
  | Some i => start <= i /\ length pre <= i /\ occurs (pre ++ text) sep i /\ (forall j, start <= j -> length pre <= j -> j < i -> ~ occurs (pre ++ text) sep j)
  | None => forall j, start <= j -> length pre <= j -> ~ occurs (pre ++ text) sep j
  end.
Proof.
  assert (O : forall pre text, occurs (pre ++ text) sep (length pre) <-> is_prefix sep text = true).
  { intros pre text. rewrite is_prefix_spec. split.
    - intros (a & b & E & L). exists b. assert (pre = a /\ text = sep ++ b) as (_ & H); [|exact H]. clear -E L. revert a E L. induction pre as [|x pre IH]; intros [|y a] E L; try discriminate; [auto|]. injection E as -> E. injection L as L. destruct (IH a E L) as (-> & ->). auto.
    - intros (b & ->). exists pre, b. auto. }
  induction text as [|c text IH]; intros pre; cbn [find_from].
  - destruct ((start <=? length pre) && is_prefix sep []) eqn:E.
    + apply andb_true_iff in E. destruct E as (E1 & E2). repeat split; [lia|lia|apply O; exact E2|intros; lia].
    + intros j A B C. assert (j = length pre) as ->. { destruct C as (a & b & E' & L). apply (f_equal (@length _)) in E'. rewrite !app_length in E'. cbn in E'. lia. }
      apply O in C. apply andb_false_iff in E. destruct E; [lia|congruence].
  - destruct ((start <=? length pre) && is_prefix sep (c :: text)) eqn:E.
    + apply andb_true_iff in E. destruct E as (E1 & E2). repeat split; [lia|lia|apply O; exact E2|intros; lia].
    + assert (N : start <= length pre -> ~ occurs (pre ++ c :: text) sep (length pre)) by (intros A C; apply O in C; apply andb_false_iff in E; destruct E; [lia|congruence]).
      specialize (IH (pre ++ [c])). rewrite app_length in IH. cbn [length] in IH. rewrite Nat.add_1_r, <- app_assoc in IH. cbn [app] in IH. destruct (find_from sep text (S (length pre)) start) as [i|].
      * destruct IH as (A & B & C & D). repeat split; [lia|lia|exact C|]. intros j J1 J2 J3. destruct (Nat.eq_dec j (length pre)) as [->|NE]; [apply N; exact J1|apply D; lia].
      * intros j J1 J2. destruct (Nat.eq_dec j (length pre)) as [->|NE]; [apply N; exact J1|apply IH; lia].
Qed.

Section Add.
Variables (text sep : str) (limit : Z).
Hypothesis sep_nonempty : sep <> [].
Notation occ := (occurs text sep).
Lemma occ_lt i : occ i -> i < length text.
Proof. intros (a & b & E & L). rewrite E, !app_length. destruct sep; [congruence|]. cbn. lia. Qed.
(** the first separator from m on, or the end *)
Definition next (m i : nat) : Prop := (m <= i /\ occ i /\ forall j, m <= j -> j < i -> ~ occ j) \/ (i = length text /\ forall j, m <= j -> ~ occ j).
Lemma block_next m : next m (block_from text sep m).
Proof.
  unfold block_from. pose proof (find_from_spec sep m text []) as H. cbn [length app] in H. destruct (find_from sep text 0 m) as [i|]; [left|right].
  - destruct H as (A & _ & B & C). repeat split; auto. intros j J1 J2. apply C; lia.
  - split; [reflexivity|]. intros j J. apply H; lia.
Qed.
Lemma separators_none m p : (forall i, m <= i -> i < p -> ~ occ i) -> separators text sep m p 0.
Proof. intros H. exists []. split; [constructor|]. split; [reflexivity|]. intros i. split; [intros []|]. intros (A & B & C). exact (H i A B C). Qed.
Lemma separators_zero m p i : next m i -> p <= i -> separators text sep m p 0.
Proof. intros N L. apply separators_none. intros j A B. destruct N as [(_ & _ & N)|(-> & N)]; apply N; lia. Qed.
Lemma separators_succ m i p k : next m i -> i < p -> i < length text -> separators text sep (i + 1) p k -> separators text sep m p (S k).
Proof.
  intros N L LT (l & ND & LE & H). destruct N as [(A & B & C)|(-> & _)]; [|lia]. exists (i :: l). split; [|split].
  - constructor; [|exact ND]. intros I. apply H in I. lia.
  - cbn. lia.
  - intros j. split.
    + intros [<-|I]; [auto|]. apply H in I. destruct I as (I1 & I2 & I3). split; [lia|]. auto.
    + intros (X & Y & Z). destruct (Nat.lt_trichotomy j i) as [Q|[->|Q]]; [exfalso; exact (C j X Q Z)|left; reflexivity|right; apply H; split; [lia|auto]].
Qed.
Lemma loop_ok : forall fuel m pos cb cnt, next m cb -> length text - cb < fuel ->
  exists k cb', loop text sep fuel pos cb cnt = Ok (cb', cnt + k) /\ separators text sep m pos k /\ next (Nat.max m pos) cb'.
Proof.
  induction fuel as [|fuel IH]; intros m pos cb cnt N F; [lia|]. cbn [loop]. destruct (Nat.ltb_spec cb pos) as [L|L].
  - destruct (Nat.ltb_spec cb (length text)) as [LT|LT].
    + destruct (IH (cb + 1) pos (block_from text sep (cb + 1)) (S cnt)) as (k & cb' & E & S1 & N1); [apply block_next| |].
      * pose proof (block_next (cb + 1)) as [(A & _)|(-> & _)]; lia.
      * exists (S k), cb'. split; [rewrite E; f_equal; f_equal; lia|]. split; [eapply separators_succ; eauto|]. assert (M : m <= cb) by (destruct N as [(A & _)|(-> & _)]; lia). replace (Nat.max m pos) with (Nat.max (cb + 1) pos) by lia. exact N1.
    + exists 0, cb. split; [f_equal; f_equal; lia|]. destruct N as [(A & B & C)|(-> & C)]; [apply occ_lt in B; lia|]. split; [|right; split; [reflexivity|intros j J; apply C; lia]].
      apply separators_none. intros j J1 J2. apply C. exact J1.
  - exists 0, cb. split; [f_equal; f_equal; lia|]. split; [eapply separators_zero; eauto|]. destruct N as [(A & B & C)|(-> & C)]; [left|right].
    + repeat split; [lia|exact B|]. intros j J1 J2. apply C; lia.
    + split; [reflexivity|]. intros j J. apply C. lia.
Qed.
Lemma count_newlines s : count newline s = newlines s.
Proof. unfold count, newlines, newline. induction s as [|c s IH]; [reflexivity|]. cbn [filter count_occ]. destruct (ascii_dec c "010") as [->|N]; [rewrite Ascii.eqb_refl; cbn [length]; rewrite IH; reflexivity|]. destruct (Ascii.eqb_spec "010" c); [congruence|exact IH]. Qed.
Lemma count_spaces s : count " " s = spaces s.
Proof. unfold count, spaces. induction s as [|c s IH]; [reflexivity|]. cbn [filter count_occ]. destruct (ascii_dec c " ") as [->|N]; [rewrite Ascii.eqb_refl; cbn [length]; rewrite IH; reflexivity|]. destruct (Ascii.eqb_spec " " c); [congruence|exact IH]. Qed.
Lemma key_gt_spec a b : key_gt (whitespace_key a) (whitespace_key b) = true <-> stronger a b.
Proof. unfold key_gt, whitespace_key, stronger. cbn [fst snd]. rewrite !count_newlines, !count_spaces. lia. Qed.

Lemma update_ok pos s m cb : next m cb -> exists s' cb' m', update text sep limit pos s cb = Ok (s', cb') /\ next m' cb' /\
  forall l l', spaced text sep limit m' l l' -> spaced text sep limit m ((pos, s) :: l) ((pos, s') :: l').
Proof.
  intros N. destruct pos as [p|]; cbn [update].
  - unfold get_newlines. destruct (loop_ok (S (S (length text))) m p cb 0 N) as (k & cb' & E & S1 & N1); [lia|]. rewrite E. cbn [bindr plus]. do 3 eexists. split; [reflexivity|]. split; [exact N1|]. intros l l' SP. eapply spaced_some; [exact S1| |exact SP].
    unfold newline. set (w := repeat "010"%char (Z.to_nat (Z.min (Z.of_nat k) limit))). destruct w as [|c w'] eqn:EW; [right; auto|]. destruct (key_gt (whitespace_key (c :: w')) (whitespace_key s)) eqn:K.
    + left. split; [discriminate|]. split; [apply key_gt_spec; exact K|reflexivity].
    + right. split; [right; intros ST; apply key_gt_spec in ST; congruence|reflexivity].
  - exists s, cb, m. split; [reflexivity|]. split; [exact N|]. intros. constructor. assumption.
Qed.
Lemma node_ok : forall n m cb, next m cb -> exists n' cb' m', handle_node text sep limit n cb = Ok (n', cb') /\ next m' cb' /\ shape n' = shape n /\
  forall l l', spaced text sep limit m' l l' -> spaced text sep limit m (slots n ++ l) (slots n' ++ l').
Proof.
  induction n as [h t sb st kids F] using un_induction. intros m cb N. cbn [handle_node].
  destruct (update_ok h sb m cb N) as (sb' & cb1 & m1 & -> & N1 & S1). cbn [bindr].
  assert (K : exists kids' cb2 m2, (fix go (l : list un) (cb : nat) : res (list un * nat) :=
        match l with [] => Ok ([], cb) | c :: l => let! (c, cb) := handle_node text sep limit c cb in let! (l, cb) := go l cb in Ok (c :: l, cb) end) kids cb1 = Ok (kids', cb2) /\ next m2 cb2 /\ map shape kids' = map shape kids /\
      forall l l', spaced text sep limit m2 l l' -> spaced text sep limit m1 (flat_map slots kids ++ l) (flat_map slots kids' ++ l')).
  { clear -F N1. revert cb1 m1 N1. induction F as [|c kids Hc F IH]; intros cb1 m1 N1; [exists [], cb1, m1; repeat split; auto|].
    destruct (Hc m1 cb1 N1) as (c' & cb2 & m2 & -> & N2 & SH & S2). cbn [bindr]. destruct (IH cb2 m2 N2) as (kids' & cb3 & m3 & -> & N3 & SHs & S3). cbn [bindr]. exists (c' :: kids'), cb3, m3. split; [reflexivity|]. split; [exact N3|]. split; [cbn; congruence|].
    intros l l' SP. cbn [flat_map]. rewrite <- !app_assoc. apply S2. apply S3. exact SP. }
  destruct K as (kids' & cb2 & m2 & -> & N2 & SH & S2). cbn [bindr]. destruct (update_ok t st m2 cb2 N2) as (st' & cb3 & m3 & -> & N3 & S3). cbn [bindr].
  exists (UN h t sb' st' kids'), cb3, m3. split; [reflexivity|]. split; [exact N3|]. split; [cbn [shape]; rewrite SH; reflexivity|].
  intros l l' SP. cbn [slots app]. rewrite <- !app_assoc. apply S1. apply S2. cbn [app]. apply S3. exact SP.
Qed.

(** ** C83 *)
(** add_newlines() changes only whitespace: before each head and tail come as many newlines as there are separators in the text since the
    highest position before it (at most the limit), unless the whitespace there is as strong already. *)
Theorem C83_newlines : forall n, exists n', add_newlines text sep limit n = Ok n' /\ shape n' = shape n /\ spaced text sep limit 0 (slots n) (slots n').
Proof.
  intros n. unfold add_newlines. destruct (node_ok n 0 (block_from text sep 0) (block_next 0)) as (n' & cb' & m' & -> & _ & SH & S). cbn [bindr]. exists n'. split; [reflexivity|]. split; [exact SH|].
  rewrite <- (app_nil_r (slots n)), <- (app_nil_r (slots n')). apply S. constructor.
Qed.
End Add.
Print Assumptions C83_newlines.

(** No whitespace becomes weaker, and every line break in the text is there, up to the limit: between any two places that follow each other
    (in ascending order). *)
Lemma newlines_repeat k : newlines (repeat "010"%char k) = k.
Proof. unfold newlines. induction k as [|k IH]; [reflexivity|]. cbn [repeat count_occ]. destruct (ascii_dec "010" "010"); [lia|congruence]. Qed.
Lemma spaced_weak text sep limit m l l' : spaced text sep limit m l l' -> Forall2 (fun a b => fst a = fst b /\ (snd b = snd a \/ stronger (snd b) (snd a))) l l'.
Proof. induction 1 as [|m s l l' H IH|m p s s' k l l' S W H IH]; constructor; auto. cbn [fst snd]. split; [reflexivity|]. destruct W as [(_ & A & ->)|(_ & ->)]; auto. Qed.
Theorem C83_never_weaker : forall text sep limit n n', sep <> [] -> add_newlines text sep limit n = Ok n' ->
  Forall2 (fun a b => fst a = fst b /\ (snd b = snd a \/ stronger (snd b) (snd a))) (slots n) (slots n').
Proof. intros text sep limit n n' NE E. destruct (C83_newlines text sep limit NE n) as (x & E' & _ & S). rewrite E in E'. injection E' as <-. eapply spaced_weak. exact S. Qed.
Print Assumptions C83_never_weaker.

(** [some l]: the places with a position *)
Definition placed (l : list (option nat * str)) : list (nat * str) := flat_map (fun x => match fst x with Some p => [(p, snd x)] | None => [] end) l.
(** consecutive elements with the one before *)
Inductive pairs_ok (R : nat -> nat * str -> Prop) : nat -> list (nat * str) -> Prop :=
| pairs_nil m : pairs_ok R m []
| pairs_cons m x l : R m x -> pairs_ok R (fst x) l -> pairs_ok R m (x :: l).
Inductive ascending : nat -> list (nat * str) -> Prop :=
| ascending_nil m : ascending m []
| ascending_cons m x l : m <= fst x -> ascending (fst x) l -> ascending m (x :: l).
Lemma nth_slice {A} (t : list A) k m j : nth_error (firstn k (skipn m t)) j = if j <? k then nth_error t (m + j) else None.
Proof.
  assert (F : forall (t : list A) k j, nth_error (firstn k t) j = if j <? k then nth_error t j else None).
  { clear. induction t as [|x t IH]; intros k j; [rewrite firstn_nil; destruct j, (_ <? _); reflexivity|]. destruct k as [|k]; [cbn [firstn]; destruct j; reflexivity|]. destruct j as [|j]; [reflexivity|]. cbn [firstn nth_error]. rewrite IH. reflexivity. }
  rewrite F. destruct (j <? k); [|reflexivity]. revert m. induction t as [|x t IH]; intros m; [rewrite skipn_nil; destruct j, m; reflexivity|]. destruct m; [reflexivity|]. cbn. apply IH.
Qed.
Theorem C83_line_breaks : forall text limit n n', add_newlines text ["010"%char] limit n = Ok n' -> ascending 0 (placed (slots n)) ->
  pairs_ok (fun m x => (Z.min (Z.of_nat (newlines (firstn (fst x - m) (skipn m text)))) limit <= Z.of_nat (newlines (snd x)))%Z) 0 (placed (slots n')).
Proof.
  intros text limit n n' E. destruct (C83_newlines text ["010"%char] limit ltac:(discriminate) n) as (x & E' & _ & SP). rewrite E in E'. injection E' as <-. revert SP. generalize (slots n) (slots n') 0. clear.
  intros l l' m SP. induction SP as [|m s l l' H IH|m p s s' k l l' S W H IH]; intros A; [constructor|exact (IH A)|]. cbn in A. inversion A; subst. cbn [fst] in *. cbn. constructor; [|cbn [fst]; replace (Nat.max m p) with p in IH by lia; apply IH; assumption].
  cbn [fst snd]. assert (K : newlines (firstn (p - m) (skipn m text)) = k).
  { destruct S as (q & ND & <- & Q). 
    assert (O : forall t i, occurs t ["010"%char] i <-> nth_error t i = Some "010"%char).
    { intros t i. split; [intros (a & b & -> & <-); rewrite nth_error_app2, Nat.sub_diag by lia; reflexivity|]. intros N. apply nth_error_split in N. destruct N as (a & b & -> & L). exists a, b. auto. }
    (* positions of newlines in a text *)
    assert (PS : forall t, exists z, NoDup z /\ length z = newlines t /\ forall i, In i z <-> nth_error t i = Some "010"%char).
    { clear. induction t as [|c t (z & N & L & Z)]; [exists []; repeat split; [constructor|intros []|destruct i; discriminate]|]. unfold newlines. cbn [count_occ]. fold (newlines t).
      assert (NZ : NoDup (map S z)) by (apply Injective_map_NoDup; [intros u v; lia|exact N]). destruct (ascii_dec c "010") as [->|NC].
      - exists (0 :: map S z). split; [constructor; [rewrite in_map_iff; intros (w & W & _); discriminate|exact NZ]|]. split; [cbn; rewrite map_length; lia|]. intros [|i]; cbn; [split; auto|]. rewrite in_map_iff. split; [intros [X|(w & [= ->] & W)]; [discriminate|apply Z; exact W]|intros X; right; exists i; split; [reflexivity|apply Z; exact X]].
      - exists (map S z). split; [exact NZ|]. split; [rewrite map_length; exact L|]. intros [|i]; cbn; rewrite in_map_iff; [split; [intros (w & W & _); discriminate|congruence]|]. split; [intros (w & [= ->] & W); apply Z; exact W|intros X; exists i; split; [reflexivity|apply Z; exact X]]. }
    destruct (PS (firstn (p - m) (skipn m text))) as (z & N & L & Z). rewrite <- L, <- (map_length (plus m) z).
    apply Nat.le_antisymm.
    - apply NoDup_incl_length; [apply Injective_map_NoDup; [intros u v; lia|exact N]|]. intros i I. apply in_map_iff in I. destruct I as (j & <- & J). apply Z in J. rewrite nth_slice in J. destruct (Nat.ltb_spec j (p - m)); [|discriminate].
      apply Q. split; [lia|]. split; [lia|]. apply O. exact J.
    - apply NoDup_incl_length; [exact ND|]. intros i I. apply Q in I. destruct I as (I1 & I2 & I3). apply O in I3. apply in_map_iff. exists (i - m). split; [lia|]. apply Z. rewrite nth_slice. destruct (Nat.ltb_spec (i - m) (p - m)); [|lia]. replace (m + (i - m)) with i by lia. exact I3. }
  rewrite K. destruct W as [(_ & _ & ->)|(W & ->)]; [rewrite newlines_repeat; lia|]. destruct W as [W|W].
  - destruct (Z.to_nat (Z.min (Z.of_nat k) limit)) eqn:EZ; [lia|discriminate].
  - unfold stronger in W. rewrite newlines_repeat in W. lia.
Qed.
Print Assumptions C83_line_breaks.
Example C83_witness :
  let n := UN None None [] [] [UN (Some 0) (Some 9) [] (txt " ") [UN (Some 2) None (txt " ") [] []; UN (Some 5) None [] [] []]] in
  let nl := "010"%char in let text := ["{"%char; " "%char; "c"%char; nl; nl; "d"%char; nl; " "%char; " "%char; "}"%char] in
  ascending 0 (placed (slots n)) /\
  add_newlines text [nl] 10 n = Ok (UN None None [] [] [UN (Some 0) (Some 9) [] [nl] [UN (Some 2) None (txt " ") [] []; UN (Some 5) None [nl; nl] [] []]]).
Proof. split; [repeat constructor; cbn; lia|reflexivity]. Qed.

(** ** C84: pop_comments *)
Definition go_pop := fix go (l : list cn) : list cn * list cn :=
  match l with
  | [] => ([], [])
  | x :: r => match go r with ([], cs) => if is_comment x then ([], x :: cs) else let (x, cs') := pop_comments x in ([x], cs' ++ cs) | (r, cs) => (x :: r, cs) end
  end.
(** The comments are returned in the order of the text; they come after everything that stays, and all of them are returned. *)
Theorem C84_comments : forall n n' cs, pop_comments n = (n', cs) ->
  nodes n = nodes n' ++ flat_map nodes cs /\ Forall (fun c => is_comment c = true) cs /\
  forall pre i, nodes n' = pre ++ [(i, true)] -> pre = [].
Proof.
  induction n as [i c kids F] using cn_induction. intros n' cs E. cbn [pop_comments] in E. fold go_pop in E. destruct (go_pop kids) as (kids', cs') eqn:G. injection E as <- <-.
  assert (H : flat_map nodes kids = flat_map nodes kids' ++ flat_map nodes cs' /\ Forall (fun c => is_comment c = true) cs' /\ forall pre j, flat_map nodes kids' <> pre ++ [(j, true)]).
  { clear -F G. revert kids' cs' G. induction F as [|x kids Hx F IH]; intros kids' cs' G; cbn [go_pop] in G.
    - injection G as <- <-. repeat split; [constructor|]. intros pre j E. destruct pre; discriminate.
    - fold go_pop in G. destruct (go_pop kids) as (r, cs) eqn:GR. destruct (IH r cs eq_refl) as (A & B & C). destruct r as [|y r].
      + cbn [flat_map app] in A. destruct (is_comment x) eqn:CX.
        * injection G as <- <-. cbn [flat_map app]. rewrite A. repeat split; [constructor; assumption|]. intros pre j E. destruct pre; discriminate.
        * destruct (pop_comments x) as (x', cs1) eqn:PX. injection G as <- <-. destruct (Hx x' cs1 eq_refl) as (X1 & X2 & X3). cbn [flat_map]. rewrite app_nil_r, X1, A, flat_map_app, <- app_assoc. repeat split; [apply Forall_app; auto|].
          intros pre j E. pose proof (X3 pre j E) as ->. destruct x as [xi xc xk]. cbn in CX. subst xc. cbn [pop_comments] in PX. fold go_pop in PX. destruct (go_pop xk). injection PX as <- _. cbn [nodes app] in E. discriminate.
      + injection G as <- <-. change (flat_map nodes (x :: y :: r)) with (nodes x ++ flat_map nodes (y :: r)). cbn [flat_map]. cbn [flat_map] in A. rewrite A, <- !app_assoc. split; [reflexivity|]. split; [exact B|]. intros pre j E.
        assert (NE : nodes y ++ flat_map nodes r <> []) by (destruct y; discriminate). destruct (exists_last NE) as (u & v & UV). rewrite UV, app_assoc in E. apply app_inj_tail in E. destruct E as (_ & ->). apply (C u j). exact UV. }
  destruct H as (A & B & C). cbn [nodes]. rewrite A. split; [reflexivity|]. split; [exact B|]. intros pre j E. destruct pre as [|p pre]; [reflexivity|]. exfalso. injection E as _ E. exact (C pre j E).
Qed.
Print Assumptions C84_comments.
Example C84_witness : pop_comments (CN 0 false [CN 1 true []; CN 2 false [CN 3 false []; CN 4 true []]; CN 5 true []; CN 6 true []]) =
  (CN 0 false [CN 1 true []; CN 2 false [CN 3 false []]], [CN 4 true []; CN 5 true []; CN 6 true []]).
Proof. reflexivity. Qed.
