(** Proofs about ranges: the nodes from the start node to the end node. *)
From Coq Require Import List ZArith Bool PeanoNat Sorting.Sorted Lia ZifyBool ZifyNat.
From Verif Require Import Base Node_Model Node_Spec Node_Nav Range_Model Range_Spec Range_Proofs Range_Machine.
Import ListNotations.

Section Paths.
Variable prune : nat -> bool.

(** A node and what is seen below it. *)
Definition ptop (e : option (list nat)) (c : tree) : list (list nat) := [] :: (if prune (tid c) then [] else spaths false prune None e c).
Definition pblk (e : option (list nat)) (ts : list tree) (j : nat) : list (list nat) :=
  match nth_error ts j with Some c => map (cons j) (ptop (inner e j) c) | None => [] end.
Fixpoint pfrom (s : list nat) (e : option (list nat)) (t : tree) : list (list nat) :=
  match s with
  | [] => ptop e t
  | i :: s' => let ts := children t in
      match nth_error ts i with
      | Some c => map (cons i) (pfrom s' (inner e i) c) ++ concat (map (pblk e ts) (seq (S i) (Z.to_nat (hi e (List.length ts) - Z.of_nat i))))
      | None => []
      end
  end.

Lemma skipped_ext t (Q Q' : list nat -> Prop) p : (forall q, Q q <-> Q' q) -> skipped t Q prune p <-> skipped t Q' prune p.
Proof. intros H. split; intros (q & m & A & B & C); exists q, m; split; auto; split; auto; now apply H. Qed.

Lemma skipped_down n ts i c (Q : list nat -> Prop) p : nth_error ts i = Some c -> ~ Q [] -> skipped (T n ts) Q prune (i :: p) <-> skipped c (fun x => Q (i :: x)) prune p.
Proof.
  intros E N. split; intros (q & m & A & B & R & P).
  - destruct q as [|j q]; [tauto|]. apply above_cons2 in A as [-> A]. apply reach_cons in R as (c' & E' & R). assert (c' = c) by congruence. subst. exists q, m. auto.
  - exists (i :: q), m. split; [now apply above_cons2|]. split; [exact B|]. split; [econstructor; eauto|exact P].
Qed.

Lemma skipped_root c (Q : list nat -> Prop) p : Q [] -> skipped c Q prune p <-> (p <> [] /\ prune (tid c) = true) \/ skipped c (fun x => x <> [] /\ Q x) prune p.
Proof.
  intros H. split.
  - intros (q & m & A & B & R & P). destruct q as [|x q]; [inversion R; subst; left; split; [intros ->; now apply above_nil_r in A|exact P]|]. right. exists (x :: q), m. repeat split; auto. discriminate.
  - intros [[NE P]|(q & m & A & [_ B] & R & P)]; [|exists q, m; auto]. destruct p as [|x p]; [congruence|]. exists [], c. split; [apply above_nil|]. split; [exact H|]. split; [constructor|exact P].
Qed.

Lemma ptop_In e c q : In q (ptop e c) <-> (reached None e q /\ ~ skipped c (reached None e) prune q) /\ exists_at c q.
Proof.
  rewrite skipped_root by apply reached_nil. unfold ptop. cbn [In]. split.
  - intros [<-|H].
    + split; [split; [apply reached_nil|]|exists c; constructor]. intros [[N _]|S]; [congruence|now apply skipped_here in S].
    + destruct (prune (tid c)) eqn:P; [destruct H|]. apply spaths_In in H as [(NE & R & NS) EX]. split; [split; [exact R|]|exact EX]. intros [[_ X]|S]; [congruence|auto].
  - intros [[R NS] EX]. destruct q as [|x q]; [now left|right]. destruct (prune (tid c)) eqn:P; [elim NS; left; split; [discriminate|reflexivity]|].
    apply spaths_In. split; [|exact EX]. split; [discriminate|]. split; [exact R|]. intros S. apply NS. now right.
Qed.

Lemma blocks_In e ts k m p : In p (concat (map (pblk e ts) (seq k m))) <-> exists j c q, p = j :: q /\ nth_error ts j = Some c /\ k <= j < k + m /\ In q (ptop (inner e j) c).
Proof.
  rewrite in_concat. split.
  - intros (l & H & J). apply in_map_iff in H as (j & <- & IJ). apply in_seq in IJ. unfold pblk in J. destruct (nth_error ts j) as [c|] eqn:E; [|destruct J]. apply in_map_iff in J as (q & <- & Q). exists j, c, q. auto.
  - intros (j & c & q & -> & E & L & Q). exists (pblk e ts j). split; [apply in_map_iff; exists j; split; [reflexivity|apply in_seq; lia]|]. unfold pblk. rewrite E. now apply in_map.
Qed.

Lemma between_reached s e p : between s e p <-> match s with Some s => upto s p | None => True end /\ reached None e p.
Proof. unfold between, reached. tauto. Qed.

Lemma pfrom_In : forall s e t p, match e with Some e => upto s e | None => True end -> exists_at t s ->
  (In p (pfrom s e t) <-> (between (Some s) e p /\ ~ skipped t (between (Some s) e) prune p) /\ exists_at t p).
Proof.
  induction s as [|i s IH]; intros e t p U EX; cbn [pfrom].
  - rewrite ptop_In, (skipped_ext t (between (Some []) e) (reached None e)); rewrite ?between_reached; [|intros q; rewrite between_reached]; pose proof upto_nil; intuition auto.
  - destruct t as [n ts]. apply exists_cons in EX as (c & E & EX). cbn [children]. rewrite E. assert (I : i < List.length ts) by (apply nth_error_Some; congruence).
    assert (UI : match inner e i with Some e => upto s e | None => True end).
    { destruct e as [[|j e]|]; cbn [inner]; auto. apply upto_cons in U. destruct (Nat.eqb_spec i j); [destruct U as [?|[_ U]]; [lia|exact U]|exact Logic.I]. }
    assert (UH : (Z.of_nat i <= hi e (List.length ts))%Z).
    { destruct e as [[|j e]|]; cbn [hi]; [now apply upto_nil_r in U|apply upto_cons in U; lia|lia]. }
    assert (N0 : ~ between (Some (i :: s)) e []) by (intros [H _]; apply upto_nil_r in H; discriminate).
    rewrite in_app_iff, in_map_iff, blocks_In. destruct p as [|j q].
    { split; [|tauto]. intros [(q & X & _)|(j & c' & q & X & _)]; discriminate. }
    rewrite exists_cons. split.
    + intros [(x & X & J)|(j' & c' & q' & X & E' & L & J)]; injection X as -> ->.
      * apply (IH (inner e j) c q UI EX) in J as [[B NS] EQ]. split; [|eauto]. rewrite (skipped_down n ts j c _ q E N0). split.
        -- rewrite between_reached in *. destruct B as [B1 B2]. split; [apply upto_cons; auto|]. apply (reached_cons None e j q _ I). cbn [lo inner]. split; [lia|auto].
        -- intros S. apply NS. revert S. apply skipped_ext. intros x. rewrite !between_reached, upto_cons, (reached_cons None e j x _ I). cbn [lo inner]. intuition lia.
      * assert (J' : j' < List.length ts) by (apply nth_error_Some; congruence). apply ptop_In in J as [[R NS] EQ]. split; [|eauto]. rewrite (skipped_down n ts j' c' _ q' E' N0). split.
        -- rewrite between_reached. split; [apply upto_cons; left; lia|]. apply (reached_cons None e j' q' _ J'). cbn [lo inner]. split; [lia|]. split; [lia|auto].
        -- intros S. apply NS. revert S. apply skipped_ext. intros x. rewrite !between_reached, upto_cons, (reached_cons None e j' x _ J'). cbn [lo inner]. intuition lia.
    + intros [[B NS] (c' & E' & EQ)]. assert (J' : j < List.length ts) by (apply nth_error_Some; congruence). rewrite (skipped_down n ts j c' _ q E' N0) in NS.
      rewrite between_reached in B. destruct B as [B1 B2]. apply (reached_cons None e j q _ J') in B2 as (_ & HJ & R). cbn [inner] in R. apply upto_cons in B1 as [L|[<- UQ]].
      * right. exists j, c', q. split; [reflexivity|]. split; [exact E'|]. split; [lia|]. apply ptop_In. split; [split; [exact R|]|exact EQ]. intros S. apply NS. revert S. apply skipped_ext.
        intros x. rewrite !between_reached, upto_cons, (reached_cons None e j x _ J'). cbn [lo inner]. intuition lia.
      * left. exists q. split; [reflexivity|]. assert (c' = c) by congruence. subst c'. apply (IH (inner e i) c q UI EX). split; [|exact EQ]. split; [rewrite between_reached; auto|].
        intros S. apply NS. revert S. apply skipped_ext. intros x. rewrite !between_reached, upto_cons, (reached_cons None e i x _ J'). cbn [lo inner]. intuition lia.
Qed.

Lemma ptop_sorted e c : StronglySorted before (ptop e c).
Proof.
  unfold ptop. constructor; [destruct (prune (tid c)); [constructor|apply (spaths_sorted false)]|]. rewrite Forall_forall. intros q Q. destruct (prune (tid c)); [destruct Q|]. apply spaths_In in Q as [[NE _] _].
  destruct q as [|x q]; [congruence|]. left. apply above_nil.
Qed.

Lemma SS_cons_map i l : StronglySorted before l -> StronglySorted before (map (cons i) l).
Proof. intros H. apply SS_map; [|exact H]. intros a b. now apply (ordr_cons false). Qed.

Lemma blocks_sorted e ts m : forall k, StronglySorted before (concat (map (pblk e ts) (seq k m))).
Proof.
  induction m as [|m IH]; intros k; cbn [seq map concat]; [constructor|]. apply SS_app; [|apply IH|].
  - unfold pblk. destruct (nth_error ts k); [apply SS_cons_map, ptop_sorted|constructor].
  - intros x y X Y. apply blocks_In in Y as (j & c & q & -> & _ & L & _). unfold pblk in X. destruct (nth_error ts k); [|destruct X]. apply in_map_iff in X as (p & <- & _). right. apply left_of_lt. lia.
Qed.

Lemma pfrom_sorted : forall s e t, StronglySorted before (pfrom s e t).
Proof.
  induction s as [|i s IH]; intros e t; cbn [pfrom]; [apply ptop_sorted|]. destruct (nth_error (children t) i) as [c|]; [|constructor]. apply SS_app; [apply SS_cons_map, IH|apply blocks_sorted|].
  intros x y X Y. apply blocks_In in Y as (j & c' & q & -> & _ & L & _). apply in_map_iff in X as (p & <- & _). right. apply left_of_lt. lia.
Qed.

Lemma ptop_points e c : Forall2 (points_at c) (ptop e c) (tid c :: if prune (tid c) then [] else seen false prune None e c).
Proof. unfold ptop. constructor; [exists c; split; [constructor|reflexivity]|]. destruct (prune (tid c)); [constructor|apply spaths_seen]. Qed.

Lemma Forall2_cons_map n ts i c ps ys : nth_error ts i = Some c -> Forall2 (points_at c) ps ys -> Forall2 (points_at (T n ts)) (map (cons i) ps) ys.
Proof. intros E F. induction F as [|p y ps ys H F IH]; cbn [map]; constructor; auto. now apply (points_cons n ts i c). Qed.

Lemma pfrom_points : forall s e t c, reach t s c -> Forall2 (points_at t) (pfrom s e t) (listed_from prune s e t c).
Proof.
  induction s as [|i s IH]; intros e t c R; unfold listed_from; cbn [pfrom afters inners].
  - inversion R; subst. cbn [concat]. rewrite app_nil_r. apply ptop_points.
  - destruct t as [n ts]. apply reach_cons in R as (d & E & R). cbn [children]. rewrite E, concat_app. cbn [concat]. rewrite app_nil_r, app_assoc. apply Forall2_app.
    + apply (Forall2_cons_map n ts i d _ _ E), (IH (inner e i) d c R).
    + assert (H : forall m k, i < k -> Forall2 (points_at (T n ts)) (concat (map (pblk e ts) (seq k m))) (concat (map (blk false prune (Some (i :: s)) e ts) (seq k m)))).
      { induction m as [|m IHm]; intros k K; cbn [seq map concat]; [constructor|]. apply Forall2_app; [|apply IHm; lia]. unfold pblk, blk. destruct (nth_error ts k) as [d'|] eqn:E'; [|constructor].
        apply (Forall2_cons_map n ts k d' _ _ E'). unfold block. cbn [inner]. replace (k =? i) with false by lia. apply ptop_points. }
      apply H. lia.
Qed.

End Paths.

(** The nodes from the start node to the end node. *)
Lemma nodes_lists prune t s e : s <> [] -> valid t (Some s) -> valid t e -> match e with Some e => upto s e | None => True end ->
  exists f0 r ys, new_range t (Some s) e = Ok r /\ (forall fuel, f0 <= fuel -> exists r', range_nodes fuel prune r = Ok (ys, r')) /\
    lists t before (fun p => between (Some s) e p /\ ~ skipped t (between (Some s) e) prune p) ys.
Proof.
  intros NE VS VE U. destruct (nodes_spec prune t s e NE VS VE) as (f0 & c & r & R & E & F). exists f0, r, (listed_from prune s e t c). split; [exact E|]. split; [exact F|].
  exists (pfrom prune s e t). split; [now apply pfrom_points|]. split; [apply pfrom_sorted|]. intros p. now apply pfrom_In.
Qed.
