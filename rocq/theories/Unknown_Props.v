(** Replacing the unknown parts of a document: the property C107. *)
From Coq Require Import String Ascii List Bool PeanoNat Lia.
From Verif Require Import Base Unknown_Model Unknown_Spec.
Import ListNotations.
Local Open Scope string_scope.
Local Open Scope list_scope.
Open Scope nat_scope.

Section Ind.
Variable Q : el -> Prop.
Hypothesis HU : forall p q, Q (Unknown p q).
Hypothesis HT : forall s m p q, Q (Text s m p q).
Hypothesis HO : forall i h t l, Forall Q l -> Q (Other i h t l).
Fixpoint el_ind2 (e : el) : Q e :=
  match e with
  | Unknown p q => HU p q
  | Text s m p q => HT s m p q
  | Other i h t l => HO i h t l ((fix all (l : list el) : Forall Q l := match l with [] => Forall_nil _ | x :: r => Forall_cons _ (el_ind2 x) (all r) end) l)
  end.
End Ind.

Lemma slice_piece : forall text pos stop, pos <= stop -> stop <= List.length text -> piece pos stop text (slice pos stop text).
Proof.
  intros text pos stop A B. exists (firstn pos text), (skipn (stop - pos) (skipn pos text)). unfold slice. split; [now rewrite firstn_skipn, firstn_skipn|].
  split; [rewrite firstn_length; lia|]. rewrite app_length, !firstn_length, skipn_length. lia.
Qed.
Lemma piece_unique : forall pos stop text s s', piece pos stop text s -> piece pos stop text s' -> s = s'.
Proof.
  intros pos stop text s s' (a & b & E & L & M) (a' & b' & E' & L' & M'). subst text. rewrite app_length in M, M'.
  assert (X : forall (u v w x : str), List.length u = List.length v -> u ++ w = v ++ x -> u = v /\ w = x).
  { induction u as [|y u IH]; intros [|z v] w x LE Q; cbn in *; try discriminate; [auto|]. injection Q as -> Q. destruct (IH v w x ltac:(lia) Q) as [-> ->]. auto. }
  destruct (X a a' _ _ ltac:(lia) E') as [_ Q]. destruct (X s s' _ _ ltac:(lia) Q) as [-> _]. reflexivity.
Qed.

Lemma unknown_dec : forall tree, has_unknown tree \/ ~ has_unknown tree.
Proof.
  apply (el_ind2 (fun tree => has_unknown tree \/ ~ has_unknown tree)).
  - intros p q. left. constructor.
  - intros u m p q. right. intros H; inversion H.
  - intros i h t l H. assert (X : Exists has_unknown l \/ ~ Exists has_unknown l).
    { induction H as [|x r [U|U] Hr IH]; [right; intros X; inversion X|now left; left|]. destruct IH as [IH|IH]; [now left; right|].
      right. intros X. inversion X; subst; auto. }
    destruct X as [X|X]; [left; now constructor|right; intros U; inversion U; subst; auto].
Qed.

(** Every unknown part below the tree is replaced by its text in the source; everything else is the same.
    Missing for the full claim: the tree itself is an unknown part (C107_unknown_finding). *)
Theorem C107_filled_partial : forall text tree, inside text tree -> (forall p q, tree <> Unknown p q) -> filled text tree (replace_unknown text tree).
Proof.
  intros text. apply (el_ind2 (fun tree => inside text tree -> (forall p q, tree <> Unknown p q) -> filled text tree (replace_unknown text tree))).
  - intros p q _ N. destruct (N p q eq_refl).
  - intros. constructor.
  - intros i h t l H D _. inversion D as [| |? ? ? ? F]; subst. cbn [replace_unknown]. constructor. clear D. induction H as [|x r Hx Hr IH]; [constructor|].
    inversion F as [|? ? A F']; subst. cbn [map]. constructor; [|now apply IH]. destruct x as [p q|s m p q|i' h' t' l'].
    + inversion A; subst. constructor. now apply slice_piece.
    + constructor.
    + apply Hx; [exact A|discriminate].
Qed.
Print Assumptions C107_filled_partial.

(** After that, writing succeeds: it gives the texts of the elements and of the unknown parts, in order. *)
Theorem C107_written_partial : forall text tree s, inside text tree -> (forall p q, tree <> Unknown p q) -> written text tree s -> write (replace_unknown text tree) = Ok s.
Proof.
  intros text tree s D N W. pose proof (C107_filled_partial text tree D N) as F. clear D N. revert s W. remember (replace_unknown text tree) as tree' eqn:E. clear E. revert tree' F.
  apply (el_ind2 (fun tree => forall tree', filled text tree tree' -> forall s, written text tree s -> write tree' = Ok s)).
  - intros p q tree' F s W. inversion F as [? ? s' P| |]; inversion W as [? ? s'' P'| |]; subst. cbn. f_equal. eapply piece_unique; eauto.
  - intros u m p q tree' F s W. inversion F; inversion W; subst. reflexivity.
  - intros i h t l H tree' F s W. inversion F as [| |? ? ? ? l' FF]; inversion W as [| |? ? ? ? ss WW]; subst. cbn [write].
    assert (X : (fix all (l : list el) : res str := match l with [] => Ok [] | x :: r => let! a := write x in let! b := all r in Ok (a ++ b) end) l' = Ok (concat ss)).
    { clear F W. revert ss WW l' FF. induction H as [|x r Hx Hr IH]; intros ss WW l' FF; inversion WW as [|? s1 ? ss' W1 W2]; inversion FF as [|? x' ? r' F1 F2]; subst; [reflexivity|].
      rewrite (Hx x' F1 s1 W1). cbn [bindr]. rewrite (IH ss' W2 r' F2). reflexivity. }
    rewrite X. reflexivity.
Qed.
Print Assumptions C107_written_partial.
Theorem C107_writes : forall text tree, inside text tree -> exists s, written text tree s.
Proof.
  intros text. apply (el_ind2 (fun tree => inside text tree -> exists s, written text tree s)).
  - intros p q D. inversion D; subst. eexists. constructor. now apply slice_piece.
  - intros. eexists. constructor.
  - intros i h t l H D. inversion D as [| |? ? ? ? F]; subst. clear D. assert (X : exists ss, Forall2 (written text) l ss).
    { induction H as [|x r Hx Hr IH]; [exists []; constructor|]. inversion F as [|? ? A F']; subst. destruct (Hx A) as [s S1]. destruct (IH F') as [ss S2]. exists (s :: ss). now constructor. }
    destruct X as [ss X]. eexists. constructor. exact X.
Qed.
Print Assumptions C107_writes.

(** Without that, writing a tree with an unknown part anywhere raises an error, and no other tree does. *)
Theorem C107_before : forall tree, (has_unknown tree -> write tree = Err RuntimeError) /\ (~ has_unknown tree -> exists s, write tree = Ok s).
Proof.
  apply (el_ind2 (fun tree => (has_unknown tree -> write tree = Err RuntimeError) /\ (~ has_unknown tree -> exists s, write tree = Ok s))).
  - intros p q. split; [reflexivity|]. intros N. destruct N. constructor.
  - intros u m p q. split; [intros H; inversion H|]. intros _. cbn. eauto.
  - intros i h t l H. cbn [write].
    assert (X : forall l0, Forall (fun tree => (has_unknown tree -> write tree = Err RuntimeError) /\ (~ has_unknown tree -> exists s, write tree = Ok s)) l0 ->
      (Exists has_unknown l0 -> (fix all (l : list el) : res str :=
                   match l with [] => Ok [] | x :: r => let! a := write x in let! b := all r in Ok (a ++ b) end) l0 = Err RuntimeError) /\
      (~ Exists has_unknown l0 -> exists s, (fix all (l : list el) : res str :=
                   match l with [] => Ok [] | x :: r => let! a := write x in let! b := all r in Ok (a ++ b) end) l0 = Ok s)).
    { intros l0 F. induction F as [|x r [Hx1 Hx2] Hr [IH1 IH2]]; split.
      - intros X; inversion X.
      - intros _. eauto.
      - intros X. inversion X as [? ? U|? ? U]; subst; [now rewrite (Hx1 U)|].
        destruct (write x) as [a|e] eqn:W; cbn [bindr]; [now rewrite (IH1 U)|].
        destruct (unknown_dec x) as [Y|Y]; [pose proof (Hx1 Y) as Q; injection Q as ->; reflexivity|destruct (Hx2 Y) as [s Q]; discriminate].
      - intros N. destruct Hx2 as [a A]; [intros U; apply N; now left|]. destruct IH2 as [b B]; [intros U; apply N; now right|]. rewrite A. cbn [bindr]. rewrite B. cbn [bindr]. eauto. }
    destruct (X l H) as [X1 X2]. split.
    + intros U. inversion U as [|? ? ? ? E]; subst. now rewrite (X1 E).
    + intros N. destruct X2 as [s S]; [intros E; apply N; now constructor|]. rewrite S. cbn [bindr]. eauto.
Qed.
Print Assumptions C107_before.

(** If the tree itself is an unknown part, it stays. *)
Theorem C107_unknown_finding : forall text p q, replace_unknown text (Unknown p q) = Unknown p q /\ write (replace_unknown text (Unknown p q)) = Err RuntimeError.
Proof. split; reflexivity. Qed.
Print Assumptions C107_unknown_finding.

Example C107_witness : let text := txt "<style>a{}</style><b>x</b>" in
  let doc := Other 0 [] [] [Other 1 (txt "<style>") (txt "</style>") [Unknown 7 10]; Other 2 (txt "<b>") (txt "</b>") [Text (txt "x") false 21 22]] in
  inside text doc /\ write (replace_unknown text doc) = Ok text /\ write doc = Err RuntimeError.
Proof. split; [|split; vm_compute; reflexivity]. repeat (constructor; try (vm_compute; lia)). Qed.
