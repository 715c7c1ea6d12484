(** Specification of musical lengths and positions, in terms of what Time.length(), position() and duration() return. *)
From Coq Require Import List ZArith QArith Bool.
From Verif Require Import Base Duration_Model Time_Model.
Import ListNotations.
Open Scope nat_scope.

(** A node on which children follow each other: { } but not directly in \simultaneous. *)
Definition sequential (root : mn) (p : list nat) : Prop :=
  exists n, node_at root p = Some n /\ kind_of n = MusicList /\
    (forall q i m, p = q ++ [i] -> node_at root q = Some m -> kind_of m <> Simultaneous).
(** Any other music node in which children sound together. *)
Definition together (k : kind) : bool :=
  match k with SimultaneousMusicList | Simultaneous | OtherMusic => true | _ => false end.

(** \skip with music, without a duration of its own. *)
Definition skip_music (n : mn) : Prop := (exists d s, kind_of n = Skip d s) /\ forall c, In c (kids_of n) -> kind_of c <> Duration.

(** The lengths of the first n children. *)
Definition child_lengths (root : mn) (p : list nat) (n : nat) (ls : list Q) : Prop :=
  Forall2 (fun i l => length root (p ++ [i]) = Ok l) (seq 0 n) ls.
Definition total (ls : list Q) : Q := fold_right Qplus 0%Q ls.
(** The largest, 0 if there are none. *)
Definition largest (ls : list Q) (m : Q) : Prop := match ls with [] => (m == 0)%Q | _ => In m ls /\ forall l, In l ls -> (l <= m)%Q end.

Definition length_is (root : mn) (p : list nat) (q : Q) : Prop := exists r, length root p = Ok r /\ (r == q)%Q.
Definition position_is (root : mn) (p : list nat) (include : bool) (top : list nat) (q : Q) : Prop :=
  exists r, position root p include = Ok (top, r) /\ (r == q)%Q.
Definition duration_is (root : mn) (a b : list nat) (top : list nat) (q : Q) : Prop :=
  exists r, duration root a b = Ok (Some (top, r)) /\ (r == q)%Q.

(** Equal as numbers, or the same exception. *)
Definition same (a b : res Q) : Prop := match a, b with Ok x, Ok y => (x == y)%Q | Err e, Err f => e = f | _, _ => False end.

(** The tree with another node at a path. *)
Fixpoint put (n : mn) (p : list nat) (v : mn) : mn :=
  match p with
  | [] => v
  | i :: p => match n with MN k t o kids => MN k t o (firstn i kids ++ match skipn i kids with [] => [] | c :: r => put c p v :: r end) end
  end.

(** The nodes from the topmost Music to the node at a path, as far as they are Music. *)
Inductive music_path (root : mn) : list nat -> list mn -> Prop :=
| music_path_top p n : node_at root p = Some n -> (forall q i m, p = q ++ [i] -> node_at root q = Some m -> is_music (kind_of m) = false) -> music_path root p [n]
| music_path_below p i n m l : node_at root p = Some m -> is_music (kind_of m) = true -> music_path root p l ->
    node_at root (p ++ [i]) = Some n -> music_path root (p ++ [i]) (l ++ [n]).
(** The transform of a number of nodes: logs and dots are added, scales multiplied. *)
Definition logs (l : list mn) : Z := fold_right (fun n z => match transform_of n with Some t => t_log t + z | None => z end)%Z 0%Z l.
Definition dotcounts (l : list mn) : Z := fold_right (fun n z => match transform_of n with Some t => t_dotcount t + z | None => z end)%Z 0%Z l.
Definition scales (l : list mn) : Q := fold_right (fun n q => match transform_of n with Some t => t_scale t * q | None => q end)%Q 1%Q l.

(** The node has a duration of its own: notes, rests and so on, chords with a note in them and \skip with a duration. *)
Definition has_duration (n : mn) (d s : Q) : Prop :=
  match kind_of n with
  | Note d' s' | Durable d' s' => d' = d /\ s' = s
  | Chord d' s' => (d' = d /\ s' = s) /\ exists body x, In body (kids_of n) /\ In x (kids_of body) /\ match kind_of x with Note _ _ => True | _ => False end
  | Skip d' s' => (d' = d /\ s' = s) /\ exists x, In x (kids_of n) /\ kind_of x = Duration
  | _ => False
  end.

(** Durations, scalings and scales in a tree are not negative. *)
Inductive nonneg : mn -> Prop :=
| nonneg_node k tr v kids :
    match k with Note d s | Durable d s | Chord d s | Skip d s => (0 <= d /\ 0 <= s)%Q | _ => True end ->
    match tr with Some t => (0 <= t_scale t)%Q | None => True end ->
    (forall m, v = Some m -> nonneg m) -> (forall c, In c kids -> nonneg c) -> nonneg (MN k tr v kids).
(** Every reference has a value, and logs and dotcounts are not changed. *)
Inductive simple : mn -> Prop :=
| simple_node k tr v kids :
    match tr with Some t => t_log t = 0%Z /\ t_dotcount t = 0%Z | None => True end ->
    (k = Reference -> v <> None) ->
    (forall m, v = Some m -> simple m) -> (forall c, In c kids -> simple c) -> simple (MN k tr v kids).

(** Where the paths diverge there is no transform. *)
Definition plain_divergence (root : mn) (a b : list nat) : Prop :=
  forall c i j a' b' n, a = c ++ i :: a' -> b = c ++ j :: b' -> i <> j -> node_at root c = Some n -> transform_of n = None.

(** c is the node p or an ancestor of it. *)
Definition prefix (c p : list nat) : Prop := exists r, p = c ++ r.
(** A Music node, or a child of one. *)
Definition musical (root : mn) (c : list nat) : Prop :=
  (exists m, node_at root c = Some m /\ is_music (kind_of m) = true) \/ (exists q i m, c = q ++ [i] /\ node_at root q = Some m /\ is_music (kind_of m) = true).
(** p is a chord or in a chord. *)
Definition in_chord (root : mn) (p : list nat) : Prop := exists q m, prefix q p /\ node_at root q = Some m /\ is_chord (kind_of m) = true.
