(** Model of Element.add, build_tree, MappingElement and head_mapping of quickly/dom/element.py. *)
From Coq Require Import String Ascii List Arith PeanoNat Bool.
From Verif Require Import Base.
Import ListNotations.

(** ** Element.add (719-739)
    A node is anything; a class (or a tuple of classes) in a child order is its
    [isinstance] predicate. *)
Section Add.
Variable N : Type.

(** [for n in self ^ skip]: insertion before the first child that is no instance
    of the classes in [skip] (735-737); None if there is no such child.  [self.index(n)]
    (736) finds the child itself: nodes are compared by identity (node.py:300)
    and an earlier occurrence would have been found earlier. *)
Fixpoint insert_after_skip (skip : list (N -> bool)) (node : N) (kids : list N) : option (list N) :=
  match kids with
  | [] => None
  | k :: r =>
      if existsb (fun cls => cls k) skip
      then match insert_after_skip skip node r with Some l => Some (k :: l) | None => None end
      else Some (node :: k :: r)
  end.

(** dom/element.py 732-738: the loop over one child order *)
Fixpoint add_order (node : N) (skip order : list (N -> bool)) (kids : list N) : option (list N) :=
  match order with
  | [] => None
  | cls :: r =>
      if cls node
      then match insert_after_skip skip node kids with
           | Some l => Some l
           | None => add_order node (skip ++ [cls]) r kids
           end
      else add_order node (skip ++ [cls]) r kids
  end.

(** dom/element.py 731-739 *)
Fixpoint add (node : N) (child_order : list (list (N -> bool))) (kids : list N) : list N :=
  match child_order with
  | [] => kids ++ [node]
  | order :: r => match add_order node [] order kids with Some l => l | None => add node r kids end
  end.
End Add.

(** ** build_tree (983-1047) *)
(** A node: an identity, its type and its children. (for [add_loop], dom/element.py 1006-1030) *)
Inductive bt := B (id ty : nat) (kids : list bt).
(** for [add_loop], dom/element.py 1006-1030 *)
Definition b_id (t : bt) := match t with B i _ _ => i end.
(** for [add_loop], dom/element.py 1006-1030 *)
Definition b_ty (t : bt) := match t with B _ y _ => y end.
(** for [main_loop], dom/element.py 1032-1043 *)
Definition b_kids (t : bt) := match t with B _ _ k => k end.

(** Element.add_argument (dom/element.py 699-706); for the classes in lily.py that convert the argument, see Arg_Model and C113. *)
Definition add_argument (parent node : bt) : bt := B (b_id parent) (b_ty parent) (b_kids parent ++ [node]).

(** A signature: the isinstance predicate of each argument, in terms of the type. (for [advance], dom/element.py 1016) *)
Definition signature := list (nat -> bool).

Section Build.
(** [signatures()] by type; None if it is falsy (the default, an empty tuple). *)
Variable sigs : nat -> option (list signature).
(** [ignore_type]; constantly false if not given. *)
Variable ignore : nat -> bool.
(** [parent.add_argument(node)]: the parent after it. *)
Variable add_arg : bt -> bt -> bt.

(** dom/element.py 1016: [[s[1:] for s in signatures if isinstance(node, s[0])]]; s[0] raises
    IndexError for an empty signature. *)
Fixpoint advance (ty : nat) (ss : list signature) : res (list signature) :=
  match ss with
  | [] => Ok []
  | [] :: _ => Err IndexError
  | (c :: s) :: r => let! l := advance ty r in Ok (if c ty then s :: l else l)
  end.

(** dom/element.py 1036-1037: the same with [and len(s) > 1] *)
Fixpoint advance_existing (ty : nat) (ss : list signature) : res (list signature) :=
  match ss with
  | [] => Ok []
  | [] :: _ => Err IndexError
  | (c :: s) :: r =>
      let! l := advance_existing ty r in
      Ok (if c ty && negb (Nat.eqb (length s) 0) then s :: l else l)
  end.

(** for [add_loop], dom/element.py 1006-1030 *)
Definition nonempty {A} (l : list A) : bool := match l with [] => false | _ => true end.

(** for [add_loop], dom/element.py 1006-1030 *)
Definition entry := (bt * list signature)%type.

(** dom/element.py 1006-1030: the inner function add; the head of [pending] is its last item and
    the head of [stack] the top.  Returns the new stack and the yielded nodes. *)
Fixpoint add_loop (fuel : nat) (stack : list entry) (pending : list bt) : res (list entry * list bt) :=
  match fuel with
  | 0 => Err OutOfFuel
  | S fuel =>
      match stack, pending with
      | (parent, signatures) :: stack', node :: pending' =>
          if ignore (b_ty node) then add_loop fuel ((add_arg parent node, signatures) :: stack') pending'
          else
            let! ss := advance (b_ty node) signatures in
            if nonempty ss then
              let parent := add_arg parent node in
              let ss := filter nonempty ss in
              if nonempty ss then add_loop fuel ((parent, ss) :: stack') pending'
              else add_loop fuel stack' (parent :: pending')
            else add_loop fuel stack' (parent :: node :: pending')
      | _, _ => Ok (stack, pending)
      end
  end.

(** for [main_loop], dom/element.py 1032-1043 *)
Definition add_node (stack : list entry) (node : bt) : res (list entry * list bt) :=
  add_loop (2 * length stack + 2) stack [node].

(** dom/element.py 1035-1041: existing children are taken into account; None if [break] is reached *)
Fixpoint existing (kids : list bt) (ss : list signature) : res (option (list signature)) :=
  match kids with
  | [] => Ok (Some ss)
  | c :: r =>
      if ignore (b_ty c) then existing r ss
      else
        let! ss := advance_existing (b_ty c) ss in
        if nonempty ss then existing r ss else Ok None
  end.

(** dom/element.py 1032-1043: the main loop *)
Fixpoint main_loop (nodes : list bt) (stack : list entry) : res (list entry * list bt) :=
  match nodes with
  | [] => Ok (stack, [])
  | node :: r =>
      let! push := match sigs (b_ty node) with None => Ok None | Some ss => existing (b_kids node) ss end in
      match push with
      | Some ss => main_loop r ((node, ss) :: stack)
      | None =>
          let! (stack, out) := add_node stack node in
          let! (stack, out') := main_loop r stack in
          Ok (stack, out ++ out')
      end
  end.

(** dom/element.py 1045-1047: the remaining stack; each step makes it shorter *)
Fixpoint finish (fuel : nat) (stack : list entry) : res (list bt) :=
  match fuel with
  | 0 => Err OutOfFuel
  | S fuel =>
      match stack with
      | [] => Ok []
      | (parent, _) :: stack =>
          let! (stack, out) := add_node stack parent in
          let! out' := finish fuel stack in
          Ok (out ++ out')
      end
  end.

(** dom/element.py 983-1047 *)
Definition build_tree_with (nodes : list bt) : res (list bt) :=
  let! (stack, out) := main_loop nodes [] in
  let! out' := finish (S (length stack)) stack in
  Ok (out ++ out').
End Build.
(** dom/element.py 983-1047, if add_argument is not overridden *)
Definition build_tree (sigs : nat -> option (list signature)) (ignore : nat -> bool) (nodes : list bt) : res (list bt) :=
  build_tree_with sigs ignore add_argument nodes.

(** ** MappingElement (932-964), ToggleElement (967-980) and head_mapping (1050-1064) *)
Section Mapping.
Variables K V : Type.
Variable keqb : K -> K -> bool.
Variable veqb : V -> V -> bool.

(** A dictionary as the list of its items; [dict_find] is the subscript. (for [check_head], dom/element.py 945-947) *)
Fixpoint dict_find {A W} (eqb : A -> A -> bool) (d : list (A * W)) (k : A) : option W :=
  match d with [] => None | (j, v) :: r => if eqb j k then Some v else dict_find eqb r k end.
(** for [inverted], dom/element.py 942 *)
Fixpoint dict_put {A W} (eqb : A -> A -> bool) (d : list (A * W)) (k : A) (w : W) : list (A * W) :=
  match d with [] => [(k, w)] | (j, v) :: r => if eqb j k then (j, w) :: r else (j, v) :: dict_put eqb r k w end.

(** dom/element.py 942: [{v: k for k, v in cls.mapping.items()}] *)
Definition inverted (mapping : list (K * V)) : list (V * K) :=
  fold_left (fun d kv => dict_put veqb d (snd kv) (fst kv)) mapping [].

(** dom/element.py 945-947 check_head *)
Definition check_head (mapping : list (K * V)) (head : V) : bool :=
  match dict_find veqb (inverted mapping) head with Some _ => true | None => false end.

(** dom/element.py 957-960 read_head (of the text of the first token); 949-955 from_mapping gets the head in the same way *)
Definition read_head (mapping : list (K * V)) (text : K) : res V :=
  match dict_find keqb mapping text with Some v => Ok v | None => Err KeyError end.

(** dom/element.py 962-964 write_head *)
Definition write_head (mapping : list (K * V)) (head : V) : res K :=
  match dict_find veqb (inverted mapping) head with Some k => Ok k | None => Err KeyError end.
End Mapping.

(** dom/element.py 978-980: the mapping of a ToggleElement *)
Definition toggle_mapping {K} (keqb : K -> K -> bool) (on off : K) : list (K * bool) :=
  dict_put keqb (dict_put keqb [] on true) off false.

(** dom/element.py 1050-1064 head_mapping: an element type has a mapping, or a fixed head, or neither. *)
Inductive heads (K : Type) := Mapped (keys : list K) | Fixed (head : K) | Neither.
Arguments Mapped {K}. Arguments Fixed {K}. Arguments Neither {K}.
(** dom/element.py 1050-1064, with [heads] *)
Definition head_mapping {K C} (keqb : K -> K -> bool) (types : list (C * heads K)) : list (K * C) :=
  fold_left (fun d ch =>
    match snd ch with
    | Mapped ks => fold_left (fun d k => dict_put keqb d k (fst ch)) ks d
    | Fixed h => dict_put keqb d h (fst ch)
    | Neither => d
    end) types [].
