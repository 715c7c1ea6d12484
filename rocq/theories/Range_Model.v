(** Model of class Range in node.py.

    The tree is a rose tree ([Node_Nav.tree]: an identity and the children).  A level
    holds its node, like in the code.  Trails are lists of natural numbers
    (the code never produces negative ones); [start], [end] and [index] are
    integers, where -1 has its special meaning. *)
From Coq Require Import List ZArith Bool PeanoNat Lia.
From Verif Require Import Base Node_Model Node_Nav.
Import ListNotations.

(** for [new_level], node.py 1299-1307 *)
Definition children (t : tree) : list tree := match t with T _ ts => ts end.

(** node[i], for i >= 0. (for [level_next], node.py 1312-1317) *)
Definition item_at (t : tree) (i : Z) : res tree :=
  match nth_error (children t) (Z.to_nat i) with Some c => Ok c | None => Err IndexError end.

(** A list that is not None and not empty. (for [new_level], node.py 1299-1307) *)
Definition truthy (l : option (list nat)) : option (list nat) :=
  match l with Some (x :: r) => Some (x :: r) | _ => None end.

(** for [new_level], node.py 1299-1307 *)
Record level := Level {
  l_node : tree; l_depth : nat; l_start_trail : option (list nat); l_end_trail : option (list nat);
  l_start : Z; l_end : Z; l_index : Z
}.

(** node.py 1299-1307. *)
Definition new_level (node : tree) (start_trail end_trail : option (list nat)) (depth : nat) : res level :=
  let! start := match truthy start_trail with
                | Some l => match nth_error l depth with Some i => Ok (Z.of_nat i) | None => Err IndexError end
                | None => Ok 0%Z
                end in
  let e := match end_trail with
           | None => (Z.of_nat (List.length (children node)) - 1)%Z
           | Some l => match nth_error l depth with Some i => Z.of_nat i | None => (-1)%Z end
           end in
  Ok (Level node depth start_trail end_trail start e (-1)).

(** for [level_next], node.py 1312-1317 *)
Definition set_index (l : level) (i : Z) : level :=
  Level (l_node l) (l_depth l) (l_start_trail l) (l_end_trail l) (l_start l) (l_end l) i.

(** node.py 1312-1317; [None] for StopIteration. *)
Definition level_next (l : level) : res (option (tree * level)) :=
  let index := if (l_index l =? -1)%Z then l_start l else (l_index l + 1)%Z in
  if (l_end l <? index)%Z then Ok None else
  let! n := item_at (l_node l) index in Ok (Some (n, set_index l index)).

(** node.py 1319-1325: one step. *)
Definition level_prev (l : level) : res (option (tree * level)) :=
  let index := if (l_index l =? -1)%Z then l_end l else (l_index l - 1)%Z in
  if (index <? l_start l)%Z then Ok None else
  let! n := item_at (l_node l) index in Ok (Some (n, set_index l index)).

(** node.py 1327-1340. *)
Definition level_child (l : level) (index : Z) : res level :=
  let depth := S (l_depth l) in
  let start_trail := match truthy (l_start_trail l) with
                     | Some t => if (index =? l_start l)%Z && (depth <? List.length t) then Some t else None
                     | None => None
                     end in
  let end_trail := match l_end_trail l with
                   | Some t => if (index =? l_end l)%Z then Some t else None
                   | None => None
                   end in
  let! n := item_at (l_node l) index in
  new_level n start_trail end_trail depth.

(** node.py 1342-1344. *)
Definition start_in_range (l : level) : bool :=
  match truthy (l_start_trail l) with
  | Some t => negb (existsb (fun i => negb (i =? 0)) (skipn (l_depth l) t))
  | None => true
  end.

(** node.py 1346-1355: the loop. *)
Fixpoint follow_end (n : tree) (trail : list nat) : res bool :=
  match trail with
  | [] => Ok (List.length (children n) =? 0)
  | i :: r => if (Z.of_nat i <? Z.of_nat (List.length (children n)) - 1)%Z then Ok false else
              let! c := item_at n (Z.of_nat i) in follow_end c r
  end.
(** node.py 1346-1355, with [follow_end] *)
Definition end_in_range (l : level) : res bool :=
  match l_end_trail l with None => Ok true | Some t => follow_end (l_node l) (skipn (l_depth l) t) end.

(** A range: node.py 699-706.  The stack has the last level first. *)
Record range := Range { r_start_trail : option (list nat); r_end_trail : option (list nat); r_top : level; r_below : list level }.

(** for [from_here], node.py 773-784 *)
Definition new_range (ancestor : tree) (start_trail end_trail : option (list nat)) : res range :=
  let! l := new_level ancestor start_trail end_trail 0 in Ok (Range start_trail end_trail l []).

(** for [range_bool], node.py 786-789 *)
Definition base_level (r : range) : level := List.last (r_below r) (r_top r).
(** for [start_node], node.py 753-759, 761-767 *)
Definition ancestor (r : range) : tree := l_node (base_level r).

(** for [go_down], node.py 1048-1059 *)
Definition with_top (r : range) (l : level) : range := Range (r_start_trail r) (r_end_trail r) l (r_below r).

(** node.py 753-759, 761-767. *)
Fixpoint follow (n : tree) (trail : list nat) : res tree :=
  match trail with [] => Ok n | i :: r => let! c := item_at n (Z.of_nat i) in follow c r end.
(** node.py 753-759, 761-767, with [follow] *)
Definition start_node (r : range) : res (option tree) :=
  match r_start_trail r with None => Ok None | Some t => let! n := follow (ancestor r) t in Ok (Some n) end.
(** node.py 753-759, 761-767, with [follow] *)
Definition end_node (r : range) : res (option tree) :=
  match r_end_trail r with None => Ok None | Some t => let! n := follow (ancestor r) t in Ok (Some n) end.

(** node.py 773-784. *)
Definition from_here (r : range) : res range :=
  let! l := if (-1 <? l_index (r_top r))%Z then level_child (r_top r) (l_index (r_top r)) else Ok (r_top r) in
  let s := match truthy (l_start_trail l) with
           | Some t => truthy (Some (skipn (l_depth l) t))
           | None => None
           end in
  let e := match l_end_trail l with Some t => Some (skipn (l_depth l) t) | None => None end in
  new_range (l_node l) s e.

(** node.py 786-789. *)
Definition range_bool (r : range) : bool := (l_start (base_level r) <=? l_end (base_level r))%Z.

(** Python's comparison of lists of numbers. (for [trail_in_range], node.py 819-832) *)
Fixpoint list_ltb (a b : list nat) : bool :=
  match a, b with
  | _, [] => false
  | [], _ :: _ => true
  | x :: a, y :: b => (x <? y) || ((x =? y) && list_ltb a b)
  end.
(** for [trail_intersects], node.py 834-842 *)
Definition list_leb (a b : list nat) : bool := negb (list_ltb b a).

(** node.py 819-832. *)
Definition trail_in_range (r : range) (trail : list nat) : res bool :=
  match trail with
  | [] => let! e := end_in_range (base_level r) in Ok (start_in_range (base_level r) && e)
  | _ =>
      Ok (if match truthy (r_start_trail r) with Some s => list_ltb trail s | None => false end then false else
          if match r_end_trail r with Some e => list_ltb e trail | None => false end then false else true)
  end.

(** node.py 834-842. *)
Definition trail_intersects (r : range) (trail : list nat) : bool :=
  match truthy (r_start_trail r) with Some s => list_leb (firstn (List.length trail) s) trail | None => true end &&
  match truthy (r_end_trail r) with Some e => list_leb trail (firstn (List.length trail) e) | None => true end.

(** node.py 861-865. *)
Definition is_full (r : range) : res bool :=
  let! e := end_in_range (base_level r) in Ok (start_in_range (base_level r) && e).

(** node.py 959-974: the current node; node[-1] does not occur. *)
Definition current (r : range) : res tree :=
  if (l_index (r_top r) =? -1)%Z then Ok (l_node (r_top r)) else item_at (l_node (r_top r)) (l_index (r_top r)).

(** node.py 1027-1032. *)
Definition range_trail (r : range) : list Z :=
  let t := map l_index (rev (r_below r)) in
  if (l_index (r_top r) =? -1)%Z then t else t ++ [l_index (r_top r)].

(** node.py 1038-1046. *)
Definition in_range (r : range) : res bool :=
  let l := r_top r in
  if ((l_start l <? l_index l) && (l_index l <? l_end l))%Z then Ok true else
  let! l := if (-1 <? l_index l)%Z then level_child l (l_index l) else Ok l in
  let! e := end_in_range l in Ok (start_in_range l && e).

(** node.py 1075-1078. *)
Definition reset (r : range) : range :=
  Range (r_start_trail r) (r_end_trail r) (set_index (base_level r) (-1)) [].

(** node.py 1080-1092; the depth is the length of r_below. *)
Definition enter (r : range) : res range :=
  if (l_index (r_top r) =? -1)%Z then Ok r else
  let! l := level_child (r_top r) (l_index (r_top r)) in
  Ok (Range (r_start_trail r) (r_end_trail r) l (r_top r :: r_below r)).

(** node.py 1048-1059. *)
Fixpoint go_down (r : range) (trail : list nat) : res range :=
  match trail with
  | [] => Ok r
  | i :: rest =>
      let r := with_top r (set_index (r_top r) (Z.of_nat i)) in
      match rest with
      | [] => Ok r
      | _ => let! l := level_child (r_top r) (l_index (r_top r)) in
             go_down (Range (r_start_trail r) (r_end_trail r) l (r_top r :: r_below r)) rest
      end
  end.
(** node.py 1048-1059, with [go_down] *)
Definition goto_trail (r : range) (trail : option (list nat)) : res range :=
  match trail with Some t => go_down (reset r) t | None => Ok (reset r) end.

(** node.py 1094-1106: the value returned, and the range. *)
Definition leave (r : range) : nat * range :=
  match r_below r with
  | [] => (O, with_top r (set_index (r_top r) (-1)))
  | l :: rest => (List.length (r_below r), Range (r_start_trail r) (r_end_trail r) l rest)
  end.

(** next() or the next step of reversed(), on the current level. (for [walk_range], node.py 1154-1192) *)
Definition step (reverse : bool) (r : range) : res (option (tree * range)) :=
  let! o := (if reverse then level_prev else level_next) (r_top r) in
  Ok (match o with Some (n, l) => Some (n, with_top r l) | None => None end).

(** The generators.  [prune] are the nodes after which False is sent. *)

(** node.py 1154-1192: forward and backward, with the node [upto] by its identity. *)
Fixpoint walk_range (fuel : nat) (reverse : bool) (prune : nat -> bool) (upto : option nat) (r : range) : res (list nat * range) :=
  match fuel with
  | O => Err OutOfFuel
  | S fuel =>
      let! o := step reverse r in
      match o with
      | Some (n, r) =>
          let! r := if negb (prune (tid n)) && negb (List.length (children n) =? 0) then enter r else Ok r in
          let! (ys, r) := walk_range fuel reverse prune upto r in Ok (tid n :: ys, r)
      | None =>
          let (d, r) := leave r in
          if d =? 0 then Ok ([], r) else
          let! c := current r in
          if same upto (tid c) then Ok ([], r) else walk_range fuel reverse prune upto r
      end
  end.

(** node.py 1221-1241: the loop, and descendants. *)
Fixpoint descend (fuel : nat) (reverse : bool) (prune : nat -> bool) (depth : nat) (r : range) : res (list nat * range) :=
  match fuel with
  | O => Err OutOfFuel
  | S fuel =>
      let! o := step reverse r in
      match o with
      | Some (n, r) =>
          let! r := if negb (prune (tid n)) && negb (List.length (children n) =? 0) then enter r else Ok r in
          let! (ys, r) := descend fuel reverse prune depth r in Ok (tid n :: ys, r)
      | None =>
          let (d, r) := leave r in
          if d =? depth then Ok ([], r) else descend fuel reverse prune depth r
      end
  end.
(** node.py 1221-1241, with [descend] *)
Definition range_descendants (fuel : nat) (reverse : bool) (prune : nat -> bool) (r : range) : res (list nat * range) :=
  let! r := enter r in descend fuel reverse prune (List.length (r_below r)) r.

(** node.py 1129-1144. *)
Definition range_nodes (fuel : nat) (prune : nat -> bool) (r : range) : res (list nat * range) :=
  let! r := goto_trail r (r_start_trail r) in
  let! (ys, r) :=
    match truthy (r_start_trail r) with
    | Some _ =>
        let! node := current r in
        let! (ys, r) := if negb (prune (tid node)) && negb (List.length (children node) =? 0)
                        then range_descendants fuel false prune r else Ok ([], r) in
        Ok (tid node :: ys, r)
    | None => Ok ([], r)
    end in
  let! (zs, r) := walk_range fuel false prune None r in
  Ok (ys ++ zs, r).

(** node.py 1209-1219: children; the nodes yielded and the range. *)
Fixpoint exhaust (fuel : nat) (reverse : bool) (r : range) : res (list nat * range) :=
  match fuel with
  | O => Err OutOfFuel
  | S fuel => let! o := step reverse r in
              match o with
              | Some (n, r) => let! (ys, r) := exhaust fuel reverse r in Ok (tid n :: ys, r)
              | None => Ok ([], r)
              end
  end.
(** node.py 1209-1219, with [exhaust] *)
Definition range_children (fuel : nat) (reverse : bool) (r : range) : res (list nat * range) :=
  let! r := enter r in
  let! (ys, r) := exhaust fuel reverse r in Ok (ys, snd (leave r)).

(** node.py 1108-1127.  The copies that are being filled are in a stack, [node] first; each
    with the children it has so far, the last one first.  (The code appends
    a copy to its parent before it is filled.) *)
Fixpoint extract_loop (fuel : nat) (node : nat * list tree) (parents : list (nat * list tree)) (r : range) : res tree :=
  match fuel with
  | O => Err OutOfFuel
  | S fuel =>
      let! o := step false r in
      match o with
      | Some (n, r) =>
          if negb (List.length (children n) =? 0)
          then let! r := enter r in extract_loop fuel (tid n, []) (node :: parents) r
          else extract_loop fuel (fst node, T (tid n) [] :: snd node) parents r
      | None =>
          let (d, r) := leave r in
          let done := T (fst node) (rev (snd node)) in
          match parents with
          | [] => if d =? 0 then Ok done else Err AttributeError
          | p :: rest => if d =? 0 then Err OutOfFuel (* tree still has its root at the bottom; does not occur *)
                         else extract_loop fuel (fst p, done :: snd p) rest r
          end
      end
  end.
(** node.py 1108-1127, with [extract_loop] *)
Definition extract_tree (fuel : nat) (r : range) : res tree :=
  let! r := from_here r in extract_loop fuel (tid (ancestor r), []) [] r.

(** ** Nodes of a tree in the heap *)

Section Nodes.
Context {B : Type}.
Implicit Types h : heap B.

(** node.py 802-817; the generator is consumed completely. *)
Definition get_trail (fuel : nat) h (anc node : nat) : res (option (list nat)) :=
  if node =? anc then Ok (Some []) else
  let! l := ancestors_with_index fuel h node in Ok (up_to anc l []).

(** node.py 791-800. *)
Definition contains (fuel : nat) h (r : range) (node : nat) : res bool :=
  let! trail := get_trail fuel h (tid (ancestor r)) node in
  match trail with None => Ok false | Some t => trail_in_range r t end.

(** node.py 844-859. *)
Definition intersects (fuel : nat) h (r : range) (node : nat) : res bool :=
  let! trail := get_trail fuel h (tid (ancestor r)) node in
  Ok (match trail with None => false | Some t => trail_intersects r t end).

(** node.py 1061-1073. *)
Definition goto (fuel : nat) h (r : range) (node : nat) : res (bool * range) :=
  let! trail := get_trail fuel h (tid (ancestor r)) node in
  match trail with
  | None => Ok (false, r)
  | Some t => if trail_intersects r t then let! r := goto_trail r (Some t) in Ok (true, r) else Ok (false, r)
  end.

(** node.py 718-751: the ancestor and the trails. *)
Definition from_nodes (fuel : nat) h (start_node end_node : option nat) (from_root : bool) : res (nat * option (list nat) * option (list nat)) :=
  match start_node, end_node with
  | Some s, Some e =>
      if negb from_root then
        let! m := common_ancestor_with_trail fuel h s e in
        match m with Some (a, x, y) => Ok (a, Some x, Some y) | None => Err ValueError end
      else
        let! a := root fuel h s in
        let! x := trail fuel h s in
        let! y := trail fuel h e in
        let! b := root fuel h e in
        if b =? a then Ok (a, Some x, Some y) else Err ValueError
  | Some s, None =>
      let! a := root fuel h s in
      let! x := trail fuel h s in
      Ok (a, Some x, None)
  | None, Some e =>
      let! a := root fuel h e in
      let! y := trail fuel h e in
      Ok (a, None, Some y)
  | None, None => Err ValueError
  end.
End Nodes.

(** ** Editing through a range. (for [set_level_slice], node.py 887-943) *)

Definition set_children (t : tree) (ts : list tree) : tree := match t with T n _ => T n ts end.

(** l[d] = x and l[d:] = x, of a trail. (for [set_level_slice], node.py 887-943) *)
Definition put (l : list nat) (d : nat) (x : Z) : list nat := firstn d l ++ Z.to_nat x :: skipn (S d) l.
(** for [set_level_slice], node.py 887-943 *)
Definition cut_trail (l : list nat) (d : nat) (x : list nat) : list nat := firstn d l ++ x.

(** [level.start_trail and len(level.start_trail) > level.depth]; node.py 884-885. *)
Definition deep (trail : option (list nat)) (d : nat) : bool := match trail with Some t => d <? List.length t | None => false end.

(** node.py 887-943 and 951, for a slice i:j without step; the level that is changed.  The
    lists of the trails are shared with the levels below it and with the
    range itself, where the same changes are seen. *)
Definition set_level_slice (l : level) (i j : option Z) (value : list tree) : level :=
  let d := l_depth l in
  let old := children (l_node l) in
  let len := Z.of_nat (List.length old) in
  let index := match i with Some i => clamp len i | None => 0%Z end in
  let stop := match j with Some j => clamp len j | None => len end in
  let removed := (stop - index)%Z in
  let added := Z.of_nat (List.length value) in
  let length := (len + added - removed)%Z in
  let (a, b) := slice_bounds old i j in
  let node := set_children (l_node l) (splice old a b value) in
  let adjust_start := deep (l_start_trail l) d in
  let adjust_end := deep (l_end_trail l) d in
  if (length =? 0)%Z then
    Level node d (match truthy (l_start_trail l) with Some t => Some (cut_trail t d [0]) | None => l_start_trail l end)
                 (match truthy (l_end_trail l) with Some t => Some (cut_trail t d []) | None => l_end_trail l end) 0 (-1) (-1)
  else
    let (start, start_trail) :=
      if (index <=? l_start l)%Z then
        if (l_start l <? index + removed)%Z then
          let start := (index + added)%Z in
          (start, if adjust_start then option_map (fun t => cut_trail t d (if ((0 <? start) && (start <? length))%Z then [Z.to_nat start] else [])) (l_start_trail l) else l_start_trail l)
        else
          let start := (l_start l + (added - removed))%Z in
          (start, if adjust_start then option_map (fun t => put t d start) (l_start_trail l) else l_start_trail l)
      else (l_start l, l_start_trail l) in
    let (end_, end_trail) :=
      if (index <=? l_end l)%Z then
        if (l_end l <? index + removed)%Z then
          let end_ := (index + added)%Z in
          (end_, if adjust_end then option_map (fun t => cut_trail t d (if (end_ <? length)%Z then [Z.to_nat end_] else [])) (l_end_trail l) else l_end_trail l)
        else
          let end_ := (l_end l + (added - removed))%Z in
          (end_, if adjust_end then option_map (fun t => put t d end_) (l_end_trail l) else l_end_trail l)
      else if (l_end l =? -1)%Z && match l_end_trail l with None => true | _ => false end then ((length - 1)%Z, l_end_trail l)
      else (l_end l, l_end_trail l) in
    let at_ :=
      if (index <=? l_index l)%Z then
        if (l_index l <? index + removed)%Z then (index + added)%Z else (l_index l + (added - removed))%Z
      else l_index l in
    Level node d start_trail end_trail start end_ at_.

(** node.py 944-951: one item. *)
Definition set_level_item (l : level) (i : Z) (value : tree) : res level :=
  let d := l_depth l in
  match position (children (l_node l)) i with
  | None => Err IndexError
  | Some k =>
      let start_trail := if deep (l_start_trail l) d && (i =? l_start l)%Z then option_map (firstn (S d)) (l_start_trail l) else l_start_trail l in
      let end_trail := if deep (l_end_trail l) d && (i =? l_end l)%Z then option_map (firstn (S d)) (l_end_trail l) else l_end_trail l in
      Ok (Level (set_children (l_node l) (splice (children (l_node l)) k (S k) [value])) d start_trail end_trail (l_start l) (l_end l) (l_index l))
  end.

(** node.py 953-957. *)
Definition del_level_item (l : level) (i : Z) : level := set_level_slice l (Some i) (Some (i + 1)%Z) [].
