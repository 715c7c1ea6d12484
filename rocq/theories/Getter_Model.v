(** Model of duration_getter() in quickly/dom/lily.py. *)
From Coq Require Import List ZArith QArith Bool.
From Verif Require Import Base Duration_Model Rhythm_Model.
Import ListNotations.
Open Scope nat_scope.

(** node.py 471-494, 541-556: a node and its descendants, reversed, with the paths that identify them.
    Rhythm_Model.bwd with paths. *)
Fixpoint bwdp (p : list nat) (n : rn) : list (list nat * rn) :=
  (p, n) :: (fix go (i : nat) (l : list rn) : list (list nat * rn) := match l with [] => [] | c :: r => go (S i) r ++ bwdp (p ++ [i]) c end) 0 (kids_of n).
(** The children of the node at [p] from number [i] on, with their descendants, last first. (for [backs], node.py 541-556) *)
Fixpoint bwdl (p : list nat) (i : nat) (l : list rn) : list (list nat * rn) :=
  match l with [] => [] | c :: r => bwdl p (S i) r ++ bwdp (p ++ [i]) c end.
(** node.py 541-556 backward(): the left siblings, nearest first, then those of the parent, and so on. *)
Fixpoint backs (p : list nat) (n : rn) (before : list (list nat * rn)) (path : list nat) : list (list nat * rn) :=
  match path with
  | [] => before
  | i :: path =>
      match nth_error (kids_of n) i with
      | Some c => backs (p ++ [i]) c (bwdl p 0 (firstn i (kids_of n)) ++ before) path
      | None => []
      end
  end.
(** node.py 541-556, with [backs] *)
Definition backward (root : rn) (path : list nat) : list (list nat * rn) := backs [] root [] path.

(** dom/lily.py 3299-3342 *)
Fixpoint node_at (n : rn) (path : list nat) : option rn :=
  match path with [] => Some n | i :: p => match nth_error (kids_of n) i with Some c => node_at c p | None => None end end.

(** dom/lily.py 3315-3316: the variables of the getter: the cached durables, and their duration. *)
Definition state := (list (list nat) * option (Q * Q))%type.
(** dom/lily.py 3315-3316, with [state] *)
Definition fresh : state := ([], None).
(** dom/lily.py 3315-3316, with [state] *)
Definition mem (p : list nat) (s : list (list nat)) : bool := if in_dec (list_eq_dec Nat.eq_dec) p s then true else false.

(** dom/lily.py 3328-3342: the loop; [new] are the durables without duration that were passed. *)
Fixpoint look (st : state) (new : list (list nat)) (l : list (list nat * rn)) : option (Q * Q) * state :=
  match l with
  | [] => let d := Some (1 # 4, 1)%Q in (d, (new, d))
  | (p, n) :: l =>
      if sets_previous (kind_of n) then
        match duration_scaling (durs_of n) with
        | Some d => (Some d, (new, Some d))
        | None => if mem p (fst st) then (snd st, (new ++ fst st, snd st)) else look st (p :: new) l
        end
      else look st new l
  end.
(** dom/lily.py 3318-3342 get_duration, for the node at a path *)
Definition get_duration (root : rn) (path : list nat) (n : rn) (st : state) : option (Q * Q) * state :=
  match duration_scaling (durs_of n) with
  | Some d => (Some d, st)
  | None => if mem path (fst st) then (snd st, st) else look st [path] (backward root path)
  end.
(** A number of calls of one getter. (dom/lily.py 3299-3342) *)
Fixpoint calls (root : rn) (st : state) (l : list (list nat)) : list (option (Q * Q)) :=
  match l with
  | [] => []
  | p :: l =>
      match node_at root p with
      | Some n => let (d, st) := get_duration root p n st in d :: calls root st l
      | None => None :: calls root st l
      end
  end.
