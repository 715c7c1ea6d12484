(** What the version, language and filename of commands mean. *)
From Coq Require Import String Ascii List ZArith NArith Bool.
From Verif Require Import Base Duration_Spec Version_Model.
Import ListNotations.

(** The numbers in a text: the longest runs of digits, in order. *)
Inductive numbers : str -> list Z -> Prop :=
| numbers_none s : Forall (fun c => ~ is_digit c) s -> numbers s []
| numbers_more before run rest l : Forall (fun c => ~ is_digit c) before -> run <> [] -> Forall is_digit run ->
    (forall c, hd_error rest = Some c -> ~ is_digit c) -> numbers rest l -> numbers (before ++ run ++ rest) (digits_value run :: l).

(** Numbers written in decimals without leading zeroes, separated by dots. *)
Definition decimals (n : N) (s : str) : Prop :=
  (n = 0%N /\ s = ["0"%char]) \/ ((0 < n)%N /\ Forall is_digit s /\ digits_value s = Z.of_N n /\ hd_error s <> Some "0"%char).
Inductive dotted : list N -> str -> Prop :=
| dotted_none : dotted [] []
| dotted_one n s : decimals n s -> dotted [n] s
| dotted_more n s m v t : decimals n s -> dotted (m :: v) t -> dotted (n :: m :: v) (s ++ "."%char :: t).

(** The argument of a command: its first String child. *)
Inductive argument : el -> option str -> Prop :=
| argument_none k kids : Forall (fun x => forall h l, x <> E (KString h) l) kids -> argument (E k kids) None
| argument_first k a h l b : Forall (fun x => forall h l, x <> E (KString h) l) a -> argument (E k (a ++ E (KString h) l :: b)) (Some h).

(** The same but for the argument, which is now [h]: changed, or added before the other children. *)
Inductive given : str -> el -> el -> Prop :=
| given_changed h k a h' l b : Forall (fun x => forall h l, x <> E (KString h) l) a ->
    given h (E k (a ++ E (KString h') l :: b)) (E k (a ++ E (KString h) l :: b))
| given_added h k kids : Forall (fun x => forall h l, x <> E (KString h) l) kids ->
    given h (E k kids) (E k (E (KString h) [] :: kids)).

(** An element with no Version below it (it may be one itself). *)
Inductive unversioned : el -> Prop :=
| unversioned_all k kids : Forall (fun x => kind_of x <> KVersion /\ unversioned x) kids -> unversioned (E k kids).

(** [v] is the first Version below the element, in document order; replaced by [v'] the element becomes the other one. *)
Inductive first_version : el -> el -> el -> el -> Prop :=
| first_here k a v v' b : Forall (fun x => kind_of x <> KVersion /\ unversioned x) a -> kind_of v = KVersion ->
    first_version v v' (E k (a ++ v :: b)) (E k (a ++ v' :: b))
| first_below k a x x' v v' b : Forall (fun x => kind_of x <> KVersion /\ unversioned x) a -> kind_of x <> KVersion ->
    first_version v v' x x' -> first_version v v' (E k (a ++ x :: b)) (E k (a ++ x' :: b)).
