(** Theorems about quickly/time.py: C65, C66, C67, C71. *)
From Coq Require Import List ZArith QArith Bool Lia Lqa.
From Verif Require Import Base Duration_Model Time_Model Time_Spec Time_Proofs.
Import ListNotations.
Open Scope nat_scope.

Definition note (d : Q) : mn := MN (Note d 1) None None [].
(** { c4 \tuplet 3/2 { c8 d8 e8 } << g2 { a4 \music } >> c4 } with music = { c8 d8 } *)
Definition tuplet : mn := MN OtherMusic (Some (Transform 0 0 (2#3))) None [MN Other None None []; MN MusicList None None [note (1#8); note (1#8); note (1#8)]].
Definition parallel : mn := MN SimultaneousMusicList None None
  [note (1#2); MN MusicList None None [note (1#4); MN Reference None (Some (MN MusicList None None [note (1#8); note (1#8)])) []]].
Definition score : mn := MN Other None None [MN MusicList None None [note (1#4); tuplet; parallel; note (1#4)]].

Fixpoint simpleb (n : mn) : bool :=
  match n with MN k tr v kids =>
    match tr with Some t => (t_log t =? 0)%Z && (t_dotcount t =? 0)%Z | None => true end &&
    match v with Some m => simpleb m | None => negb (is_reference k) end && forallb simpleb kids
  end.
Lemma simpleb_simple n : simpleb n = true -> simple n.
Proof.
  induction n as [k tr v kids IHv IHk] using mn_induction. cbn [simpleb]. intros H. apply andb_true_iff in H. destruct H as (H & C). apply andb_true_iff in H. destruct H as (T & V). constructor.
  - destruct tr as [t|]; [|exact Logic.I]. apply andb_true_iff in T. rewrite !Z.eqb_eq in T. exact T.
  - intros -> ->. discriminate.
  - intros m ->. auto.
  - intros c I. rewrite forallb_forall in C. auto.
Qed.
Fixpoint nonnegb (n : mn) : bool :=
  match n with MN k tr v kids =>
    match k with Note d s | Durable d s | Chord d s | Skip d s => Qle_bool 0 d && Qle_bool 0 s | _ => true end &&
    match tr with Some t => Qle_bool 0 (t_scale t) | None => true end &&
    match v with Some m => nonnegb m | None => true end && forallb nonnegb kids
  end.
Lemma nonnegb_nonneg n : nonnegb n = true -> nonneg n.
Proof.
  induction n as [k tr v kids IHv IHk] using mn_induction. cbn [nonnegb]. intros H. rewrite !andb_true_iff in H. destruct H as (((K & T) & V) & C). constructor.
  - destruct k; try exact Logic.I; apply andb_true_iff in K; rewrite !Qle_bool_iff in K; exact K.
  - destruct tr as [t|]; [|exact Logic.I]. apply Qle_bool_iff. exact T.
  - intros m ->. auto.
  - intros c I. rewrite forallb_forall in C. auto.
Qed.
Lemma score_simple : simple score. Proof. apply simpleb_simple. reflexivity. Qed.
Lemma score_nonneg : nonneg score. Proof. apply nonnegb_nonneg. reflexivity. Qed.
Ltac values := eexists; split; [vm_compute; reflexivity|vm_compute; reflexivity].

(** ** C65: lengths *)

(** The length of sequential music is the sum of the lengths of its children. *)
Theorem C65_sequential : forall root p n q, node_at root p = Some n -> sequential root p ->
  length_is root p q <-> exists ls, child_lengths root p (List.length (kids_of n)) ls /\ (q == total ls)%Q.
Proof. exact length_sequential. Qed.
Print Assumptions C65_sequential.
Lemma score_sequential : sequential score [0].
Proof. eexists. split; [reflexivity|]. split; [reflexivity|]. intros q i m E N. destruct q as [|x q]; [injection N as <-; discriminate|]. destruct q; discriminate. Qed.
Example C65_sequential_witness : length_is score [0] (5#4)%Q /\ length_is score [0; 1] (1#4)%Q /\ length_is score [0; 2] (1#2)%Q.
Proof. repeat split; values. Qed.

(** The length of simultaneous music is the largest of the lengths of its children; the same of \skip without a duration. *)
Theorem C65_simultaneous : forall root p n q, node_at root p = Some n ->
  (together (kind_of n) = true \/ kind_of n = MusicList /\ ~ sequential root p \/ skip_music n) ->
  length_is root p q <-> exists ls, child_lengths root p (List.length (kids_of n)) ls /\ exists m, largest ls m /\ (m == q)%Q.
Proof.
  intros root p n q N T. split.
  - intros (r & E & R). apply (length_together _ _ _ _ N T) in E. destruct E as (ls & F & M). exists ls. split; [exact F|]. apply maximum_largest. eauto.
  - intros (ls & F & L). apply maximum_largest in L. destruct L as (r & M & R). exists r. split; [|exact R]. apply (length_together _ _ _ _ N T). eauto.
Qed.
Print Assumptions C65_simultaneous.
Example C65_simultaneous_witness : length_is score [0; 2; 0] (1#2) /\ length_is score [0; 2; 1] (1#2) /\ length_is score [0; 2] (1#2).
Proof. repeat split; values. Qed.
(** \simultaneous { c4 d2 } *)
Example C65_simultaneous_list_witness : length_is (MN Simultaneous None None [MN MusicList None None [note (1#4); note (1#2)]]) [] (1#2).
Proof. values. Qed.

(** A durable gets the transforms of all Music around it: the logs and dots added, the scales multiplied. *)
Theorem C65_durable : forall root p n l d s, node_at root p = Some n -> has_duration n d s -> music_path root p l ->
  same (length root p) (transform_length (Transform (logs l) (dotcounts l) (scales l)) d s).
Proof. exact length_durable. Qed.
Print Assumptions C65_durable.
(** Every node has such a path. *)
Theorem C65_durable_path : forall root p n, node_at root p = Some n -> exists l, music_path root p l.
Proof.
  intros root p. induction p as [|i p IH] using rev_ind; intros n N.
  - exists [n]. constructor; [exact N|]. intros q i m E. destruct q; discriminate.
  - destruct (node_at root p) as [m|] eqn:M; [|rewrite node_at_snoc, M in N; discriminate]. destruct (is_music (kind_of m)) eqn:K.
    + destruct (IH m eq_refl) as (l & P). exists (l ++ [n]). eapply music_path_below; eauto.
    + exists [n]. constructor; [exact N|]. intros q j m' E M'. apply app_inj_tail in E. destruct E as (<- & _). congruence.
Qed.
Print Assumptions C65_durable_path.
(** \scaleDurations 1/2 \tuplet 3/2 { c8 } *)
Example C65_durable_witness : length_is (MN OtherMusic (Some (Transform 0 0 (1#2))) None [tuplet]) [0; 1; 0] (1#24).
Proof. values. Qed.

(** \afterGrace is as long as its first Music. *)
Theorem C65_after_grace : forall root p n i c q, node_at root p = Some n -> kind_of n = AfterGrace -> nth_error (kids_of n) i = Some c -> is_music (kind_of c) = true ->
  (forall j d, j < i -> nth_error (kids_of n) j = Some d -> is_music (kind_of d) = false) -> length root p = Ok q <-> length root (p ++ [i]) = Ok q.
Proof. exact length_after_grace. Qed.
Print Assumptions C65_after_grace.

(** A reference is as long as its value would be in its place. *)
Theorem C65_reference : forall root p n v, node_at root p = Some n -> kind_of n = Reference -> value_of n = Some v ->
  (forall q i m, p = q ++ [i] -> node_at root q = Some m -> kind_of m <> Simultaneous) ->
  length root p = length (put root p v) p.
Proof. exact length_reference. Qed.
Print Assumptions C65_reference.
Example C65_reference_witness : length_is score [0; 2; 1; 1] (1#4).
Proof. values. Qed.

(** Lengths are never negative. *)
Theorem C65_nonneg : forall root p q, nonneg root -> length root p = Ok q -> (0 <= q)%Q.
Proof. exact length_nonneg. Qed.
Print Assumptions C65_nonneg.
(** If there are no unresolved references and no \shiftDurations, every node has a length and a position. *)
Theorem C65_total : forall root p n, simple root -> node_at root p = Some n -> exists q, length root p = Ok q.
Proof. exact length_total. Qed.
Print Assumptions C65_total.
Example C65_total_witness : simple score /\ nonneg score.
Proof. exact (conj score_simple score_nonneg). Qed.

(** Finding: a reference that cannot be resolved raises TypeError instead of having length 0, and so does all music around it. *)
Theorem C65_unresolved_finding : length (MN MusicList None None [note (1#4); MN Reference None None []]) [] = Err TypeError.
Proof. reflexivity. Qed.
Print Assumptions C65_unresolved_finding.
(** Finding: a chord of drum notes has length 0. *)
Theorem C65_drum_chord_finding : length (MN (Chord (1#4) 1) None None [MN Other None None [MN (Durable (1#4) 1) None None []]]) [] = Ok 0%Q.
Proof. reflexivity. Qed.
Print Assumptions C65_drum_chord_finding.
(** Finding: \afterGrace \music { c16 } has the length of the grace note if \music is a reference. *)
Theorem C65_after_grace_finding :
  let music := MN MusicList None None [note (1#1)] in let grace := MN MusicList None None [note (1#16)] in
  length_is (MN AfterGrace None None [music; grace]) [] 1 /\ length_is (MN AfterGrace None None [MN Reference None (Some music) []; grace]) [] (1#16).
Proof. split; values. Qed.
Print Assumptions C65_after_grace_finding.

(** ** C66: positions *)

(** In sequential music the next child starts where a child ends. *)
Theorem C66_next : forall root p n i m q l, node_at root p = Some n -> sequential root p -> S i < List.length (kids_of n) ->
  position_is root (p ++ [i]) false m q -> length_is root (p ++ [i]) l -> position_is root (p ++ [S i]) false m (q + l)%Q.
Proof. exact position_next. Qed.
Print Assumptions C66_next.
(** The i-th child of sequential music starts after the total length of the preceding children. *)
Theorem C66_sequential : forall root p n i ls m q, node_at root p = Some n -> sequential root p -> i < List.length (kids_of n) ->
  position_is root p false m q -> child_lengths root p i ls -> position_is root (p ++ [i]) false m (q + total ls)%Q.
Proof. exact position_nth. Qed.
Print Assumptions C66_sequential.
Example C66_next_witness : position_is score [0; 1] false [0] (1#4) /\ position_is score [0; 2] false [0] (1#2) /\ position_is score [0; 1; 1; 2] false [0] (5#12) /\
  position_is score [0; 3] true [0] (5#4).
Proof. repeat split; values. Qed.
(** The first child starts with its parent. *)
Theorem C66_first : forall root p n c, node_at root p = Some n -> is_music (kind_of n) = true -> nth_error (kids_of n) 0 = Some c ->
  position root (p ++ [0]) false = position root p false.
Proof. intros root p n c N M C. apply (position_same _ _ _ _ _ N M C). left. reflexivity. Qed.
Print Assumptions C66_first.
(** The children of any other music start together. *)
Theorem C66_simultaneous : forall root p n i c, node_at root p = Some n -> is_music (kind_of n) = true -> ~ sequential root p ->
  nth_error (kids_of n) i = Some c -> position root (p ++ [i]) false = position root p false.
Proof.
  intros root p n i c N M S C. apply (position_same _ _ _ _ _ N M C). right. destruct (is_sequential _ _) eqn:E; [|reflexivity]. exfalso. apply S, (sequential_is _ _ _ N), E.
Qed.
Print Assumptions C66_simultaneous.
Example C66_simultaneous_witness : position_is score [0; 2; 0] false [0] (1#2) /\ position_is score [0; 2; 1] false [0] (1#2).
Proof. split; values. Qed.
(** With include the length of the node itself is added. *)
Theorem C66_include : forall root p n m q l, node_at root p = Some n ->
  position root p false = Ok (m, q) -> length root p = Ok l -> position root p true = Ok (m, (q + l)%Q).
Proof. intros root p n m q l N P L. rewrite (position_include _ _ _ N), P, L. reflexivity. Qed.
Print Assumptions C66_include.
(** The node in the result is the topmost Music; it is at position 0. *)
Theorem C66_topmost : forall root p inc m q, position root p inc = Ok (m, q) -> prefix m p /\
  (forall a n, prefix m a -> prefix a p -> a <> p -> node_at root a = Some n -> is_music (kind_of n) = true) /\
  (forall a i n, m = a ++ [i] -> node_at root a = Some n -> is_music (kind_of n) = false).
Proof. exact topmost. Qed.
Print Assumptions C66_topmost.
Theorem C66_start : forall root p n, node_at root p = Some n -> (forall q i m, p = q ++ [i] -> node_at root q = Some m -> is_music (kind_of m) = false) ->
  position root p false = Ok (p, 0%Q).
Proof.
  intros root p n N T. unfold position. assert (preceding_music root p = (p, [])) as ->.
  { destruct p as [|i p _] using rev_ind; [reflexivity|]. rewrite preceding_snoc. destruct (node_at root p) as [m|] eqn:M; [|reflexivity]. rewrite (T p i m eq_refl M). reflexivity. }
  rewrite N. reflexivity.
Qed.
Print Assumptions C66_start.
Theorem C66_total : forall root p n inc, simple root -> node_at root p = Some n -> exists m q, position root p inc = Ok (m, q).
Proof. exact position_total. Qed.
Print Assumptions C66_total.

(** ** C67: durations *)

Theorem C67_duration_partial : forall root a b na nb m qa qb, node_at root a = Some na -> node_at root b = Some nb -> plain_divergence root a b ->
  position root a false = Ok (m, qa) -> position root b true = Ok (m, qb) -> duration_is root a b m (qb - qa)%Q.
Proof. intros. eapply duration_some; eauto. Qed.
Print Assumptions C67_duration_partial.
Theorem C67_other_music : forall root a b ma mb qa qb,
  position root a false = Ok (ma, qa) -> position root b true = Ok (mb, qb) -> ma <> mb -> duration root a b = Ok None.
Proof. exact duration_none. Qed.
Print Assumptions C67_other_music.
(** None is returned only then. *)
Theorem C67_none : forall root a b ma mb qa qb,
  position root a false = Ok (ma, qa) -> position root b true = Ok (mb, qb) -> duration root a b = Ok None -> ma <> mb.
Proof.
  intros root a b ma mb qa qb A B. apply position_music in A. apply position_music in B. unfold duration. destruct (preceding_music root a) as [m tr]. destruct (preceding_music root b) as [m' tr']. cbn [fst] in *. subst ma mb.
  destruct (list_eqb m' m) eqn:E; [|intros _ ->; assert (list_eqb m' m' = true) by (apply list_eqb_true; reflexivity); congruence]. cbn [negb]. destruct (node_at root m) as [mm|]; [|discriminate].
  destruct (common _ _ _ _ _) as [[[[[t par] n] x] y]|e]; cbn [bindr]; [|discriminate]. destruct (follow_trail t par n 0 x) as [[[[? ?] ?] q1]|e]; cbn [bindr]; [|discriminate].
  destruct (follow_trail t par n 0 y) as [[[[t2 p2] n2] q2]|e]; cbn [bindr]; [|discriminate]. destruct (ctx_length t2 p2 n2); discriminate.
Qed.
Print Assumptions C67_none.
Example C67_witness : plain_divergence score [0; 1; 1; 1] [0; 2; 1; 0] /\ position_is score [0; 1; 1; 1] false [0] (1#3) /\ position_is score [0; 2; 1; 0] true [0] (3#4) /\
  duration_is score [0; 1; 1; 1] [0; 2; 1; 0] [0] (5#12).
Proof.
  split; [|repeat split; values]. intros c i j a' b' n A B D N. destruct c as [|x c]; [injection A as <- _; injection B as <- _; congruence|]. injection A as <- A. injection B as B.
  destruct c as [|y c]; [injection N as <-; reflexivity|]. injection A as <- A. injection B as B' B. discriminate.
Qed.
(** Finding: the transform of the node in which the trails diverge is applied twice: from the fraction of a tuplet to
    its second note it is 1/9 instead of 1/6. *)
Theorem C67_transform_finding : position_is tuplet [0] false [] 0 /\ position_is tuplet [1; 1] true [] (1#6) /\ duration_is tuplet [0] [1; 1] [] (1#9).
Proof. repeat split; values. Qed.
Print Assumptions C67_transform_finding.
(** The duration of a selection is that from its first to its last music, and never negative. *)
Theorem C67_cursor : forall root s e m q, cursor_duration root s e = Ok (Some (m, q)) -> (0 <= q)%Q /\
  exists s' e' a b, s = Some s' /\ e = Some e' /\ music_child root s' = Some a /\ music_child root e' = Some b /\ duration root a b = Ok (Some (m, q)).
Proof.
  intros root s e m q. unfold cursor_duration. destruct s as [s|]; [|discriminate]. destruct (music_child root s) as [a|] eqn:A; [|discriminate]. destruct e as [e|]; [|discriminate].
  destruct (music_child root e) as [b|] eqn:B; [|discriminate]. destruct (duration root a b) as [[[m' q']|]|x] eqn:D; cbn [bindr]; try discriminate.
  destruct (Qle_bool 0 q') eqn:L; [|discriminate]. intros [= -> ->]. split; [apply Qle_bool_iff; exact L|]. do 4 eexists. eauto.
Qed.
Print Assumptions C67_cursor.
(** The position of the cursor is that of the music there (C71), without its own length; outside music there is none. *)
Theorem C67_cursor_position : forall root path m q,
  (cursor_position root (Some path) = Ok (Some (m, q)) <-> exists c, music_child root path = Some c /\ position root c false = Ok (m, q)) /\
  (cursor_position root (Some path) = Ok None <-> music_child root path = None).
Proof.
  intros root path m q. unfold cursor_position. destruct (music_child root path) as [c|]; (split; split).
  - intros E. exists c. split; [reflexivity|]. destruct (position root c false) as [[m' q']|]; [|discriminate]. injection E as -> ->. reflexivity.
  - intros (c' & [= <-] & ->). reflexivity.
  - destruct (position root c false); discriminate.
  - discriminate.
  - discriminate.
  - intros (c & ? & _). discriminate.
  - reflexivity.
  - reflexivity.
Qed.
Print Assumptions C67_cursor_position.
Example C67_cursor_position_witness : (exists q, cursor_position score (Some [0; 1; 1; 1]) = Ok (Some ([0], q)) /\ (q == 1#3)%Q) /\ cursor_position score (Some []) = Ok None.
Proof. split; [eexists; split; reflexivity|reflexivity]. Qed.
Example C67_cursor_witness : cursor_duration score (Some [0; 0]) (Some [0; 0]) = Ok (Some ([0], 1#4)).
Proof. reflexivity. Qed.
(** Finding: without a selection, at the end of the document, where no node is found, cursor_position() raises TypeError. *)
Theorem C67_cursor_end_finding : forall root, cursor_position root None = Err TypeError.
Proof. reflexivity. Qed.
Print Assumptions C67_cursor_end_finding.

(** ** C71: the music at a node *)

(** The node itself or the nearest ancestor that is Music or a child of Music; but the innermost chord if the node is in one. *)
Theorem C71_music_child : forall root p n c, node_at root p = Some n -> music_child root p = Some c ->
  prefix c p /\ (musical root c \/ in_chord root c) /\
  (in_chord root p -> (exists m, node_at root c = Some m /\ is_chord (kind_of m) = true) /\
                      forall q m, prefix q p -> node_at root q = Some m -> is_chord (kind_of m) = true -> prefix q c) /\
  (~ in_chord root p -> forall q, prefix q p -> musical root q -> prefix q c).
Proof.
  intros root p n c N E. pose proof (music_child_spec root p n N) as H. rewrite E in H. destruct H as (A & B & C & D & F). split; [exact A|]. split.
  - destruct B as [B|(m & B1 & B2)]; [auto|right; exists c, m; split; [apply prefix_refl|auto]].
  - split; [intros (q & m & Q & NQ & CQ); split; [apply (F m); eauto|exact C]|]. intros NC. apply D. intros q m Q NQ. destruct (is_chord (kind_of m)) eqn:X; [|reflexivity]. exfalso. apply NC. exists q, m. auto.
Qed.
Print Assumptions C71_music_child.
(** None is returned iff neither the node nor any ancestor is Music. *)
Theorem C71_none : forall root p n, node_at root p = Some n ->
  music_child root p = None <-> forall q m, prefix q p -> node_at root q = Some m -> is_music (kind_of m) = false.
Proof.
  intros root p n N. pose proof (music_child_spec root p n N) as H. split.
  - intros E. rewrite E in H. intros q m Q NQ. destruct (is_music (kind_of m)) eqn:M; [|reflexivity]. exfalso. apply (H q Q). left. eauto.
  - intros A. destruct (music_child root p) as [c|]; [|reflexivity]. exfalso. destruct H as (P & [[(m & NM & M)|(q & i & m & -> & NM & M)]|(m & NM & M)] & _).
    + rewrite (A c m P NM) in M. discriminate.
    + assert (prefix q p) by (destruct P as (r & ->); exists ([i] ++ r); rewrite app_assoc; reflexivity). rewrite (A q m H NM) in M. discriminate.
    + pose proof (A c m P NM) as X. destruct (kind_of m); discriminate.
Qed.
Print Assumptions C71_none.
(** << <c e>4 >>: the second note of the chord *)
Example C71_witness : let root := MN Other None None [MN SimultaneousMusicList None None [MN (Chord (1#4) 1) None None [MN Other None None [note (1#4); note (1#4)]; MN Duration None None []]]] in
  music_child root [0; 0; 0; 1] = Some [0; 0] /\ music_child root [0] = Some [0] /\ music_child root [] = None.
Proof. repeat split. Qed.
