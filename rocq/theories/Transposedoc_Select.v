(** Property C127: transposing a selection of a document. *)
From Coq Require Import String Ascii List ZArith QArith Lqa Bool Lia.
From Verif Require Import Base Pitch_Model Pitch_Spec Pitch_Proofs Transpose_Model Transpose_Spec Transpose_Proofs.
From Verif Require Import Transpose_Props Transpose_Chain Transposedoc_Model Transposedoc_Spec Transposedoc_Proofs Transposedoc_Props.
Import ListNotations.
Open Scope Z_scope.

(** ** Specification *)

(** Whether the pitches that are read are in the edited range, in the order in
    which [read] reads them. *)
Fixpoint marks (x : mtree) : list bool :=
  match x with
  | MComment | MLang _ | MSkip _ => []
  | MPitch n ch => r_writable n :: flat_map marks ch
  | MKey ch | MAbsolute ch | MChord ch | MCheck ch | MOther ch => flat_map marks ch
  | MRelative ch =>
      (fix lead l := match l with
       | MComment :: r => lead r
       | MPitch n _ :: r => if forallb is_comment r then flat_map marks l else r_writable n :: flat_map marks r
       | _ => flat_map marks l
       end) ch
  | MFixed ch =>
      (fix lead l := match l with
       | MComment :: r => lead r
       | MPitch n _ :: r => r_writable n :: flat_map marks r
       | _ => flat_map marks l
       end) ch
  | MTranspose ch =>
      (fix args k l := match l with
       | MComment :: r => args k r
       | MPitch _ _ :: r => if k : bool then flat_map marks r else args true r
       | _ => flat_map marks l
       end) false ch
  end.

(** No pitch is in the range. *)
Fixpoint untouched (x : mtree) : bool :=
  match x with
  | MPitch n ch => negb (r_writable n) && forallb untouched ch
  | MKey ch | MAbsolute ch | MRelative ch | MFixed ch | MTranspose ch | MSkip ch | MChord ch | MCheck ch | MOther ch => forallb untouched ch
  | MLang _ | MComment => true
  end.

(** The range does not cut through a \relative or \fixed expression or through
    the two pitches of \transpose. *)
Fixpoint whole (x : mtree) : bool :=
  match x with
  | MPitch _ ch | MKey ch | MAbsolute ch | MChord ch | MCheck ch | MOther ch => forallb whole ch
  | MRelative ch | MFixed ch => forallb full ch || forallb untouched ch
  | MTranspose ch =>
      match ch with
      | MPitch n _ :: MPitch m _ :: _ => eqb (r_writable n) (r_writable m)
      | _ => false
      end && forallb whole ch
  | MSkip _ | MLang _ | MComment => true
  end.

(** The same is heard. *)
Definition heard_same (h h' : heard) : Prop :=
  match h, h' with
  | Sound p d, Sound p' d' | KeyNote p d, KeyNote p' d' => p' = p /\ (d' == d)%Q
  | Start p, Start p' | Reference p, Reference p' => p' = p
  | _, _ => False
  end.

(** What is marked is transposed, the rest is the same. *)
Inductive edited (t : transposer) : list bool -> list heard -> list heard -> Prop :=
| ed_nil : edited t [] [] []
| ed_in ms h h' hs hs' : heard_transposed t h h' -> edited t ms hs hs' -> edited t (true :: ms) (h :: hs) (h' :: hs')
| ed_out ms h h' hs hs' : heard_same h h' -> edited t ms hs hs' -> edited t (false :: ms) (h :: hs) (h' :: hs').

(** ** Proofs *)

Lemma bind_ok {A B} (r : res A) (f : A -> res B) v : bindr r f = Ok v -> exists a, r = Ok a /\ f a = Ok v.
Proof. destruct r as [a|]; [|discriminate]. intros H. now exists a. Qed.

Ltac bk H E := apply bind_ok in H; destruct H as (?v & E & H); repeat match type of E with _ = Ok ?v => is_var v; destruct v end.

Lemma edited_app t m1 h1 k1 m2 h2 k2 : edited t m1 h1 k1 -> edited t m2 h2 k2 -> edited t (m1 ++ m2) (h1 ++ h2) (k1 ++ k2).
Proof. induction 1; cbn [app]; intros; try constructor; auto. Qed.

Lemma edited_full t ms hs hs' : Forall (eq true) ms -> List.length ms = List.length hs -> Forall2 (heard_transposed t) hs hs' -> edited t ms hs hs'.
Proof.
  intros A L F. revert ms A L. induction F as [|h h' hs hs' H F IH]; intros [|m ms] A L; try discriminate; [constructor|].
  inversion A as [|? ? <- A']; subst. constructor; [exact H|]. apply IH; [exact A'|now injection L].
Qed.
Lemma edited_none t ms hs hs' : Forall (eq false) ms -> List.length ms = List.length hs -> Forall2 heard_same hs hs' -> edited t ms hs hs'.
Proof.
  intros A L F. revert ms A L. induction F as [|h h' hs hs' H F IH]; intros [|m ms] A L; try discriminate; [constructor|].
  inversion A as [|? ? <- A']; subst. constructor; [exact H|]. apply IH; [exact A'|now injection L].
Qed.

Definition rel_marks := fix lead l := match l with
   | MComment :: r => lead r
   | MPitch n _ :: r => if forallb is_comment r then flat_map marks l else r_writable n :: flat_map marks r
   | _ => flat_map marks l
   end.
Definition fix_marks := fix lead l := match l with
   | MComment :: r => lead r
   | MPitch n _ :: r => r_writable n :: flat_map marks r
   | _ => flat_map marks l
   end.
Definition arg_marks := fix args k l := match l with
   | MComment :: r => args k r
   | MPitch _ _ :: r => if k : bool then flat_map marks r else args true r
   | _ => flat_map marks l
   end.

(** Marks of nodes that are in the range as a whole, or not at all. *)
Section Flag.
  Variables (v : bool) (test : mtree -> bool).
  Hypothesis Hp : forall n ch, test (MPitch n ch) = true -> r_writable n = v /\ forallb test ch = true.
  Hypothesis Hc : forall ch, (test (MKey ch) = true \/ test (MAbsolute ch) = true \/ test (MRelative ch) = true \/ test (MFixed ch) = true \/
    test (MTranspose ch) = true \/ test (MChord ch) = true \/ test (MCheck ch) = true \/ test (MOther ch) = true) -> forallb test ch = true.
  Definition flagged x := test x = true -> Forall (eq v) (marks x).

  Lemma flag_list l : Forall flagged l -> forallb test l = true -> Forall (eq v) (flat_map marks l).
  Proof.
    induction 1 as [|x r H _ IH]; [constructor|]. cbn [forallb flat_map]. intros F. apply andb_prop in F. destruct F as [F1 F2].
    apply Forall_app. split; [exact (H F1)|exact (IH F2)].
  Qed.

  Lemma flag_rel l : Forall flagged l -> forallb test l = true -> Forall (eq v) (rel_marks l).
  Proof.
    induction l as [|x r IH]; intros G F; [constructor|]. pose proof (flag_list _ G F) as A.
    inversion G as [|? ? G1 G2]; subst. cbn [forallb] in F. apply andb_prop in F. destruct F as [F1 F2].
    destruct x; try exact A; cbn [rel_marks].
    - destruct (forallb is_comment r); [exact A|]. constructor; [symmetry; apply (Hp _ _ F1)|exact (flag_list _ G2 F2)].
    - exact (IH G2 F2).
  Qed.
  Lemma flag_fix l : Forall flagged l -> forallb test l = true -> Forall (eq v) (fix_marks l).
  Proof.
    induction l as [|x r IH]; intros G F; [constructor|]. pose proof (flag_list _ G F) as A.
    inversion G as [|? ? G1 G2]; subst. cbn [forallb] in F. apply andb_prop in F. destruct F as [F1 F2].
    destruct x; try exact A; cbn [fix_marks].
    - constructor; [symmetry; apply (Hp _ _ F1)|exact (flag_list _ G2 F2)].
    - exact (IH G2 F2).
  Qed.
  Lemma flag_arg l : forall k, Forall flagged l -> forallb test l = true -> Forall (eq v) (arg_marks k l).
  Proof.
    induction l as [|x r IH]; intros k G F; [constructor|]. pose proof (flag_list _ G F) as A.
    inversion G as [|? ? G1 G2]; subst. cbn [forallb] in F. apply andb_prop in F. destruct F as [F1 F2].
    destruct x; try exact A; cbn [arg_marks].
    - destruct k; [exact (flag_list _ G2 F2)|exact (IH _ G2 F2)].
    - exact (IH _ G2 F2).
  Qed.

  Lemma flag_all x : flagged x.
  Proof.
    induction x as [n ch G|ch G|ch G|ch G|ch G|ch G|ch|ch G|ch G|l| |ch G] using mtree_rect'; intros F; cbn [marks];
      fold rel_marks; fold fix_marks; fold arg_marks; try constructor.
    - symmetry. apply (Hp _ _ F).
    - apply flag_list; [exact G|apply (Hp _ _ F)].
    - apply flag_list; [exact G|apply Hc; tauto].
    - apply flag_list; [exact G|apply Hc; tauto].
    - apply flag_rel; [exact G|apply Hc; tauto].
    - apply flag_fix; [exact G|apply Hc; tauto].
    - apply flag_arg; [exact G|apply Hc; tauto].
    - apply flag_list; [exact G|apply Hc; tauto].
    - apply flag_list; [exact G|apply Hc; tauto].
    - apply flag_list; [exact G|apply Hc; tauto].
  Qed.
End Flag.

Lemma full_marks x : full x = true -> Forall (eq true) (marks x).
Proof.
  apply (flag_all true full).
  - intros n ch H. cbn in H. now apply andb_prop in H.
  - intros ch H. cbn in H. tauto.
Qed.
Lemma untouched_marks x : untouched x = true -> Forall (eq false) (marks x).
Proof.
  apply (flag_all false untouched).
  - intros n ch H. cbn in H. apply andb_prop in H. destruct H as [H1 H2]. split; [now apply negb_true_iff|exact H2].
  - intros ch H. cbn in H. tauto.
Qed.

(** An untouched node stays as it is. *)
Lemma untouched_same x : forall x', untouched x = true -> same_but_pitches x x' -> x' = x.
Proof.
  assert (L : forall l, Forall (fun x => forall x', untouched x = true -> same_but_pitches x x' -> x' = x) l ->
    forall l', forallb untouched l = true -> Forall2 same_but_pitches l l' -> l' = l).
  { induction 1 as [|y r H _ IH]; intros l' U F; inversion F; subst; [reflexivity|]. cbn [forallb] in U. apply andb_prop in U.
    destruct U as [U1 U2]. f_equal; [now apply H|now apply IH]. }
  induction x as [n ch G|ch G|ch G|ch G|ch G|ch G|ch|ch G|ch G|l| |ch G] using mtree_rect'; intros x' U H;
    inversion H as [? ? ? ? W E _ F|? ? F|? ? F|? ? F|? ? F|? ? F|? ? F|? ? F|? ? F|? X]; subst; try contradiction; try reflexivity;
    cbn [untouched] in U; try (f_equal; exact (L _ G _ U F)).
  apply andb_prop in U. destruct U as [U1 U2]. apply negb_true_iff in U1. f_equal; [now apply E|exact (L _ G _ U2 F)].
Qed.

Section Read.
  Variables (T : tables) (s : list Q) (fa : bool).

  Definition arg_read d pl P := fix args from l := match l with
         | MComment :: r => args from r
         | MPitch n _ :: r =>
             let! p := read_node T P (r_node n) in
             match from with
             | None => args (Some p) r
             | Some q =>
                 let! (hs, _, P') := read_all (read T s fa) (d + (height s p - height s q))%Q
                   (match pl with PRel _ => PAbs | _ => pl end) P r in Ok (hs, P')
             end
         | _ => let! (hs, _, P') := read_all (read T s fa) d pl P l in Ok (hs, P')
         end.
  Lemma read_transpose d pl P ch : read T s fa d pl P (MTranspose ch) = let! (hs, P') := arg_read d pl P None ch in Ok (hs, pl, P').
  Proof. reflexivity. Qed.

  (** Reading depends on the distance only in what it says of it. *)
  Definition moves (x : mtree) : Prop := forall d d' pl P hs pl1 P1, (d' == d)%Q ->
    read T s fa d pl P x = Ok (hs, pl1, P1) ->
    List.length (marks x) = List.length hs /\
    exists hs', read T s fa d' pl P x = Ok (hs', pl1, P1) /\ Forall2 heard_same hs hs'.
  Definition moves_all (l : list mtree) : Prop := forall d d' pl P hs pl1 P1, (d' == d)%Q ->
    read_all (read T s fa) d pl P l = Ok (hs, pl1, P1) ->
    List.length (flat_map marks l) = List.length hs /\
    exists hs', read_all (read T s fa) d' pl P l = Ok (hs', pl1, P1) /\ Forall2 heard_same hs hs'.

  Lemma moves_list l : Forall moves l -> moves_all l.
  Proof.
    induction 1 as [|x r M _ IH]; intros d d' pl P hs pl1 P1 D H; cbn [read_all] in *.
    - injection H as <- <- <-. split; [reflexivity|]. exists []. split; [reflexivity|constructor].
    - fold (read_all (read T s fa)) in *. apply bind_ok in H. destruct H as ([[h1 p1] P2] & E1 & H).
      apply bind_ok in H. destruct H as ([[h2 p2] P3] & E2 & H). injection H as <- <- <-.
      destruct (M _ _ _ _ _ _ _ D E1) as (L1 & k1 & X1 & Y1). destruct (IH _ _ _ _ _ _ _ D E2) as (L2 & k2 & X2 & Y2).
      split; [cbn [flat_map]; rewrite !app_length; congruence|]. exists (k1 ++ k2). rewrite X1. cbn [bindr]. rewrite X2. cbn [bindr].
      split; [reflexivity|now apply Forall2_app].
  Qed.

  Lemma moves_rel ch : Forall moves ch -> forall d d' P hs P1, (d' == d)%Q -> rel_read_lead T s fa d P ch = Ok (hs, P1) ->
    List.length (rel_marks ch) = List.length hs /\ exists hs', rel_read_lead T s fa d' P ch = Ok (hs', P1) /\ Forall2 heard_same hs hs'.
  Proof.
    induction ch as [|x r IH]; intros M d d' P hs P1 D H.
    - cbn in H. injection H as <- <-. split; [reflexivity|]. exists []. split; [reflexivity|constructor].
    - assert (A : forall hs P1, (let! (hs, _, P') := read_all (read T s fa) d (start_place fa) P (x :: r) in Ok (hs, P')) = Ok (hs, P1) ->
        List.length (flat_map marks (x :: r)) = List.length hs /\
        exists hs', (let! (hs, _, P') := read_all (read T s fa) d' (start_place fa) P (x :: r) in Ok (hs, P')) = Ok (hs', P1) /\ Forall2 heard_same hs hs').
      { intros h0 Q0 H0. apply bind_ok in H0. destruct H0 as ([[h1 p1] P2] & E1 & H0). injection H0 as <- <-.
        destruct (moves_list _ M _ _ _ _ _ _ _ D E1) as (L & k & X & Y). split; [exact L|]. exists k. rewrite X. now split. }
      inversion M as [|? ? _ M2]; subst. destruct x; try exact (A _ _ H).
      + cbn [rel_read_lead rel_marks] in *. destruct (forallb is_comment r); [exact (A _ _ H)|].
        apply bind_ok in H. destruct H as (p & E & H). rewrite E. cbn [bindr].
        apply bind_ok in H. destruct H as ([[h1 p1] P2] & E1 & H). injection H as <- <-.
        destruct (moves_list _ M2 _ _ _ _ _ _ _ D E1) as (L & k & X & Y). cbn [List.length]. split; [now rewrite L|].
        exists (Start p :: k). rewrite X. split; [reflexivity|]. constructor; [reflexivity|exact Y].
      + exact (IH M2 _ _ _ _ _ D H).
  Qed.

  Lemma moves_fix ch : Forall moves ch -> forall d d' P hs P1, (d' == d)%Q -> fix_read_lead T s fa d P ch = Ok (hs, P1) ->
    List.length (fix_marks ch) = List.length hs /\ exists hs', fix_read_lead T s fa d' P ch = Ok (hs', P1) /\ Forall2 heard_same hs hs'.
  Proof.
    induction ch as [|x r IH]; intros M d d' P hs P1 D H.
    - cbn in H. injection H as <- <-. split; [reflexivity|]. exists []. split; [reflexivity|constructor].
    - assert (A : forall hs P1, (let! (hs, _, P') := read_all (read T s fa) d PAbs P (x :: r) in Ok (hs, P')) = Ok (hs, P1) ->
        List.length (flat_map marks (x :: r)) = List.length hs /\
        exists hs', (let! (hs, _, P') := read_all (read T s fa) d' PAbs P (x :: r) in Ok (hs, P')) = Ok (hs', P1) /\ Forall2 heard_same hs hs').
      { intros h0 Q0 H0. apply bind_ok in H0. destruct H0 as ([[h1 p1] P2] & E1 & H0). injection H0 as <- <-.
        destruct (moves_list _ M _ _ _ _ _ _ _ D E1) as (L & k & X & Y). split; [exact L|]. exists k. rewrite X. now split. }
      inversion M as [|? ? _ M2]; subst. destruct x; try exact (A _ _ H).
      + cbn [fix_read_lead fix_marks] in *.
        apply bind_ok in H. destruct H as (p & E & H). rewrite E. cbn [bindr].
        apply bind_ok in H. destruct H as ([[h1 p1] P2] & E1 & H). injection H as <- <-.
        destruct (moves_list _ M2 _ _ _ _ _ _ _ D E1) as (L & k & X & Y). cbn [List.length]. split; [now rewrite L|].
        exists (Reference p :: k). rewrite X. split; [reflexivity|]. constructor; [reflexivity|exact Y].
      + exact (IH M2 _ _ _ _ _ D H).
  Qed.

  Lemma moves_arg ch : Forall moves ch -> forall from d d' pl P hs P1, (d' == d)%Q -> arg_read d pl P from ch = Ok (hs, P1) ->
    List.length (arg_marks (match from with Some _ => true | None => false end) ch) = List.length hs /\
    exists hs', arg_read d' pl P from ch = Ok (hs', P1) /\ Forall2 heard_same hs hs'.
  Proof.
    induction ch as [|x r IH]; intros M from d d' pl P hs P1 D H.
    - cbn in H. injection H as <- <-. split; [reflexivity|]. exists []. split; [reflexivity|constructor].
    - assert (A : forall hs P1, (let! (hs, _, P') := read_all (read T s fa) d pl P (x :: r) in Ok (hs, P')) = Ok (hs, P1) ->
        List.length (flat_map marks (x :: r)) = List.length hs /\
        exists hs', (let! (hs, _, P') := read_all (read T s fa) d' pl P (x :: r) in Ok (hs, P')) = Ok (hs', P1) /\ Forall2 heard_same hs hs').
      { intros h0 Q0 H0. apply bind_ok in H0. destruct H0 as ([[h1 p1] P2] & E1 & H0). injection H0 as <- <-.
        destruct (moves_list _ M _ _ _ _ _ _ _ D E1) as (L & k & X & Y). split; [exact L|]. exists k. rewrite X. now split. }
      inversion M as [|? ? _ M2]; subst. destruct x; try exact (A _ _ H).
      + cbn [arg_read arg_marks] in *.
        apply bind_ok in H. destruct H as (p & E & H). rewrite E. cbn [bindr]. destruct from as [q|].
        * apply bind_ok in H. destruct H as ([[h1 p1] P2] & E1 & H). injection H as <- <-.
          assert (D2 : (d' + (height s p - height s q) == d + (height s p - height s q))%Q) by (rewrite D; reflexivity).
          destruct (moves_list _ M2 _ _ _ _ _ _ _ D2 E1) as (L & k & X & Y). split; [exact L|]. exists k. rewrite X. now split.
        * exact (IH M2 (Some p) _ _ _ _ _ _ D H).
      + exact (IH M2 from _ _ _ _ _ _ D H).
  Qed.

  Lemma read_pitch_moves d d' P pl n h pl1 : (d' == d)%Q -> read_pitch T d P pl n = Ok (h, pl1) ->
    exists h', read_pitch T d' P pl n = Ok (h', pl1) /\ heard_same h h'.
  Proof.
    intros D. destruct pl; cbn [read_pitch]; intros H; apply bind_ok in H.
    1,2,5,6: destruct H as (p & E & H); injection H as <- <-; rewrite E; cbn [bindr]; eexists; split; [reflexivity|now split].
    1,2: destruct H as ([p c] & E & H); injection H as <- <-; rewrite E; cbn [bindr]; eexists; split; [reflexivity|now split].
  Qed.

  Lemma all_move x : moves x.
  Proof.
    induction x as [n ch G|ch G|ch G|ch G|ch G|ch G|ch|ch G|ch G|l| |ch G] using mtree_rect';
      intros d d' pl P hs pl1 P1 D H; cbn [marks]; fold rel_marks; fold fix_marks; fold arg_marks.
    - cbn [read] in *. apply bind_ok in H. destruct H as ([h p1] & E & H). apply bind_ok in H. destruct H as ([[h2 p2] P2] & E2 & H).
      injection H as <- <- <-. destruct (read_pitch_moves _ _ _ _ _ _ _ D E) as (h' & X & Y).
      destruct (moves_list _ G _ 0%Q _ _ _ _ _ (Qeq_refl _) E2) as (L & k & X2 & Y2). cbn [List.length]. split; [now rewrite L|].
      exists (h' :: k). rewrite X. cbn [bindr]. rewrite E2. cbn [bindr]. rewrite E2 in X2. injection X2 as <-.
      split; [reflexivity|now constructor].
    - cbn [read] in *. apply bind_ok in H. destruct H as ([[h2 p2] P2] & E2 & H). injection H as <- <- <-.
      destruct (moves_list _ G _ _ _ _ _ _ _ D E2) as (L & k & X2 & Y2). split; [exact L|]. exists k. rewrite X2. now split.
    - cbn [read] in *. apply bind_ok in H. destruct H as ([[h2 p2] P2] & E2 & H). injection H as <- <- <-.
      destruct (moves_list _ G _ _ _ _ _ _ _ D E2) as (L & k & X2 & Y2). split; [exact L|]. exists k. rewrite X2. now split.
    - rewrite read_relative in *. apply bind_ok in H. destruct H as ([h2 P2] & E2 & H). injection H as <- <- <-.
      destruct (moves_rel _ G _ _ _ _ _ D E2) as (L & k & X2 & Y2). split; [exact L|]. exists k. rewrite X2. now split.
    - rewrite read_fixed in *. apply bind_ok in H. destruct H as ([h2 P2] & E2 & H). injection H as <- <- <-.
      destruct (moves_fix _ G _ _ _ _ _ D E2) as (L & k & X2 & Y2). split; [exact L|]. exists k. rewrite X2. now split.
    - rewrite read_transpose in *. apply bind_ok in H. destruct H as ([h2 P2] & E2 & H). injection H as <- <- <-.
      destruct (moves_arg _ G None _ _ _ _ _ _ D E2) as (L & k & X2 & Y2). split; [exact L|]. exists k. rewrite X2. now split.
    - cbn [read] in *. injection H as <- <- <-. split; [reflexivity|]. exists []. split; [reflexivity|constructor].
    - cbn [read] in *. destruct pl; try exact (moves_list _ G _ _ _ _ _ _ _ D H).
      apply bind_ok in H. destruct H as ([[h2 p2] P2] & E2 & H). injection H as <- <- <-.
      destruct (moves_list _ G _ _ _ _ _ _ _ D E2) as (L & k & X2 & Y2). split; [exact L|]. exists k. rewrite X2. now split.
    - cbn [read] in *. destruct pl; try exact (moves_list _ G _ _ _ _ _ _ _ D H).
      apply bind_ok in H. destruct H as ([[h2 p2] P2] & E2 & H). injection H as <- <- <-.
      destruct (moves_list _ G _ _ _ _ _ _ _ D E2) as (L & k & X2 & Y2). split; [exact L|]. exists k. rewrite X2. now split.
    - cbn [read] in *. apply bind_ok in H. destruct H as (P2 & E2 & H). injection H as <- <- <-.
      split; [reflexivity|]. exists []. rewrite E2. split; [reflexivity|constructor].
    - cbn [read] in *. injection H as <- <- <-. split; [reflexivity|]. exists []. split; [reflexivity|constructor].
    - cbn [read] in *. exact (moves_list _ G _ _ _ _ _ _ _ D H).
  Qed.
  Lemma all_moves l : moves_all l.
  Proof. apply moves_list. apply Forall_forall. intros x _. apply all_move. Qed.
End Read.

Section Lang.
  Variables (T : tables) (t : transposer) (s : list Q) (fa : bool).

  (** The walk follows the languages as a reader does. *)
  Definition same_lang (x : mtree) : Prop := forall i rm b P d pl x' b1 P1 hs pl1 P2, usual i x = true ->
    walk T t fa rm b P x = Ok (x', b1, P1) -> read T s fa d pl P x = Ok (hs, pl1, P2) -> P2 = P1.
  Definition same_langs (l : list mtree) : Prop := forall i rm b P d pl l' b1 P1 hs pl1 P2, forallb (usual i) l = true ->
    walks (walk T t fa) rm b P l = Ok (l', b1, P1) -> read_all (read T s fa) d pl P l = Ok (hs, pl1, P2) -> P2 = P1.

  Lemma lang_list l : Forall same_lang l -> same_langs l.
  Proof.
    induction 1 as [|x r M _ IH]; intros i rm b P d pl l' b1 P1 hs pl1 P2 U H K; cbn [walks read_all] in *.
    - congruence.
    - fold (walks (walk T t fa)) in H. fold (read_all (read T s fa)) in K. cbn [forallb] in U. apply andb_prop in U. destruct U as [U1 U2].
      apply bind_ok in H. destruct H as ([[x' b2] Pa] & E1 & H). apply bind_ok in H. destruct H as ([[r' b3] Pb] & E2 & H). injection H as _ _ <-.
      apply bind_ok in K. destruct K as ([[h1 p1] Pc] & F1 & K). apply bind_ok in K. destruct K as ([[h2 p2] Pd] & F2 & K). injection K as _ _ <-.
      pose proof (M _ _ _ _ _ _ _ _ _ _ _ _ U1 E1 F1) as ->. exact (IH _ _ _ _ _ _ _ _ _ _ _ _ U2 E2 F2).
  Qed.

  Lemma lang_rel ch : Forall same_lang ch -> forall i P d ch' P1 hs P2, forallb (usual i) ch = true ->
    rel_lead T t fa P ch = Ok (ch', P1) -> rel_read_lead T s fa d P ch = Ok (hs, P2) -> P2 = P1.
  Proof.
    induction ch as [|x r IH]; intros M i P d ch' P1 hs P2 U H K.
    - cbn in H, K. congruence.
    - assert (A : (let! (l', _, P') := walks (walk T t fa) true (start_body fa) P (x :: r) in Ok (l', P')) = Ok (ch', P1) ->
        (let! (hs, _, P') := read_all (read T s fa) d (start_place fa) P (x :: r) in Ok (hs, P')) = Ok (hs, P2) -> P2 = P1).
      { intros H0 K0. apply bind_ok in H0. destruct H0 as ([[x' b2] Pa] & E1 & H0). injection H0 as _ <-.
        apply bind_ok in K0. destruct K0 as ([[h1 p1] Pc] & F1 & K0). injection K0 as _ <-.
        exact (lang_list _ M _ _ _ _ _ _ _ _ _ _ _ _ U E1 F1). }
      inversion M as [|? ? _ M2]; subst. cbn [forallb] in U. apply andb_prop in U. destruct U as [_ U2].
      destruct x; try exact (A H K).
      + cbn [rel_lead rel_read_lead] in H, K. rewrite existsb_comment in H. destruct (forallb is_comment r); cbn [negb] in H; [exact (A H K)|].
        apply bind_ok in H. destruct H as (p & E & H). rewrite E in K. cbn [bindr] in K.
        apply bind_ok in K. destruct K as ([[h1 p1] Pc] & F1 & K). injection K as _ <-.
        destruct (r_writable n).
        * apply bind_ok in H. destruct H as (q & _ & H). apply bind_ok in H. destruct H as (m & _ & H). cbv zeta in H.
          apply bind_ok in H. destruct H as ([[r' b2] Pa] & E1 & H). injection H as _ <-.
          exact (lang_list _ M2 _ _ _ _ _ _ _ _ _ _ _ _ U2 E1 F1).
        * apply bind_ok in H. destruct H as ([[r' b2] Pa] & E1 & H). injection H as _ <-.
          exact (lang_list _ M2 _ _ _ _ _ _ _ _ _ _ _ _ U2 E1 F1).
      + cbn [rel_lead rel_read_lead] in H, K. apply bind_ok in H. destruct H as ([r' Pa] & E1 & H). injection H as _ <-.
        exact (IH M2 _ _ _ _ _ _ _ U2 E1 K).
  Qed.

  Lemma lang_fix ch : Forall same_lang ch -> forall i P d ch' P1 hs P2, reference_first ch = true -> forallb (usual i) ch = true ->
    fix_lead T t fa P ch = Ok (ch', P1) -> fix_read_lead T s fa d P ch = Ok (hs, P2) -> P2 = P1.
  Proof.
    induction ch as [|x r IH]; intros M i P d ch' P1 hs P2 RF U H K; [discriminate|].
    inversion M as [|? ? _ M2]; subst. cbn [forallb] in U. apply andb_prop in U. destruct U as [_ U2].
    destruct x; try discriminate.
    - cbn [fix_lead fix_read_lead] in H, K. apply bind_ok in K. destruct K as (p & _ & K).
      apply bind_ok in K. destruct K as ([[h1 p1] Pc] & F1 & K). injection K as _ <-.
      destruct (r_writable n).
      + apply bind_ok in H. destruct H as (q & _ & H). apply bind_ok in H. destruct H as ([[r' b2] Pa] & E1 & H). injection H as _ <-.
        exact (lang_list _ M2 _ _ _ _ _ _ _ _ _ _ _ _ U2 E1 F1).
      + apply bind_ok in H. destruct H as ([[r' b2] Pa] & E1 & H). injection H as _ <-.
        exact (lang_list _ M2 _ _ _ _ _ _ _ _ _ _ _ _ U2 E1 F1).
    - cbn [fix_lead fix_read_lead] in H, K. apply bind_ok in H. destruct H as ([r' Pa] & E1 & H). injection H as _ <-.
      exact (IH M2 _ _ _ _ _ _ _ RF U2 E1 K).
  Qed.

  Lemma all_same_lang x : same_lang x.
  Proof.
    induction x as [n ch G|ch G|ch G|ch G|ch G|ch G|ch|ch G|ch G|l| |ch G] using mtree_rect';
      intros i rm b P d pl x' b1 P1 hs pl1 P2 U H K.
    - cbn [walk read usual] in *. apply bind_ok in H. destruct H as ([n' b'] & _ & H).
      apply bind_ok in H. destruct H as ([[c b2] Pa] & E1 & H). injection H as _ _ <-.
      apply bind_ok in K. destruct K as ([h p] & _ & K). apply bind_ok in K. destruct K as ([[h1 p1] Pc] & F1 & K). injection K as _ _ <-.
      exact (lang_list _ G _ _ _ _ _ _ _ _ _ _ _ _ U E1 F1).
    - cbn [walk read usual] in *. apply bind_ok in H. destruct H as ([[c b2] Pa] & E1 & H). injection H as _ _ <-.
      apply bind_ok in K. destruct K as ([[h1 p1] Pc] & F1 & K). injection K as _ _ <-.
      exact (lang_list _ G _ _ _ _ _ _ _ _ _ _ _ _ U E1 F1).
    - cbn [walk read usual] in *. apply bind_ok in H. destruct H as ([[c b2] Pa] & E1 & H). injection H as _ _ <-.
      apply bind_ok in K. destruct K as ([[h1 p1] Pc] & F1 & K). injection K as _ _ <-.
      exact (lang_list _ G _ _ _ _ _ _ _ _ _ _ _ _ U E1 F1).
    - rewrite walk_relative in H. rewrite read_relative in K. cbn [usual] in U.
      apply bind_ok in H. destruct H as ([c Pa] & E1 & H). injection H as _ _ <-.
      apply bind_ok in K. destruct K as ([h1 Pc] & F1 & K). injection K as _ _ <-.
      exact (lang_rel _ G _ _ _ _ _ _ _ U E1 F1).
    - rewrite walk_fixed in H. rewrite read_fixed in K. cbn [usual] in U. apply andb_prop in U. destruct U as [RF U].
      apply bind_ok in H. destruct H as ([c Pa] & E1 & H). injection H as _ _ <-.
      apply bind_ok in K. destruct K as ([h1 Pc] & F1 & K). injection K as _ _ <-.
      exact (lang_fix _ G _ _ _ _ _ _ _ RF U E1 F1).
    - cbn [usual] in U. apply andb_prop in U. destruct U as [U U3]. apply andb_prop in U. destruct U as [U1 U2].
      destruct ch as [|[n c| | | | | | | | | | |] ch]; try discriminate. destruct c; [|discriminate].
      destruct ch as [|[m c| | | | | | | | | | |] rest]; try discriminate. destruct c; [|discriminate].
      cbn [forallb usual] in U3. cbn [andb] in U3.
      inversion G as [|? ? _ G1]; subst. inversion G1 as [|? ? _ GR]; subst. clear G G1.
      cbn [walk walks read] in H, K.
      apply bind_ok in H. destruct H as ([[y' by'] Py] & EY & H). apply bind_ok in EY. destruct EY as ([n' bn] & _ & EY).
      cbn [bindr] in EY. injection EY as _ _ <-.
      apply bind_ok in H. destruct H as ([[z' bz'] Pz] & EZ & H). apply bind_ok in EZ. destruct EZ as ([m' bm] & _ & EZ).
      cbn [bindr] in EZ. injection EZ as _ _ <-.
      apply bind_ok in H. destruct H as ([[c b2] Pa] & E1 & H). injection H as _ _ <-.
      apply bind_ok in K. destruct K as ([h1 Pc] & F1 & K). injection K as _ _ <-.
      apply bind_ok in F1. destruct F1 as (p & _ & F1). apply bind_ok in F1. destruct F1 as (q & _ & F1).
      apply bind_ok in F1. destruct F1 as ([[h2 p2] Pd] & F1 & F2). injection F2 as _ <-.
      exact (lang_list _ GR _ _ _ _ _ _ _ _ _ _ _ _ U3 E1 F1).
    - cbn [walk read] in *. congruence.
    - cbn [walk read usual] in *.
      assert (E : exists rm0 b0 c b2, walks (walk T t fa) rm0 b0 P ch = Ok (c, b2, P1)).
      { destruct rm; [destruct b|]; apply bind_ok in H; destruct H as ([[c b2] Pa] & E1 & H); injection H as _ _ <-; now do 4 eexists; exact E1. }
      assert (F : exists pl0 h p, read_all (read T s fa) d pl0 P ch = Ok (h, p, P2)).
      { destruct pl; try (now do 3 eexists; exact K). apply bind_ok in K. destruct K as ([[h p] Pc] & F1 & K). injection K as _ _ <-. now do 3 eexists; exact F1. }
      destruct E as (? & ? & ? & ? & E). destruct F as (? & ? & ? & F). exact (lang_list _ G _ _ _ _ _ _ _ _ _ _ _ _ U E F).
    - cbn [walk read usual] in *.
      assert (E : exists rm0 b0 c b2, walks (walk T t fa) rm0 b0 P ch = Ok (c, b2, P1)).
      { destruct rm; [destruct b|]; apply bind_ok in H; destruct H as ([[c b2] Pa] & E1 & H); injection H as _ _ <-; now do 4 eexists; exact E1. }
      assert (F : exists pl0 h p, read_all (read T s fa) d pl0 P ch = Ok (h, p, P2)).
      { destruct pl; try (now do 3 eexists; exact K). apply bind_ok in K. destruct K as ([[h p] Pc] & F1 & K). injection K as _ _ <-. now do 3 eexists; exact F1. }
      destruct E as (? & ? & ? & ? & E). destruct F as (? & ? & ? & F). exact (lang_list _ G _ _ _ _ _ _ _ _ _ _ _ _ U E F).
    - cbn [walk read] in *. destruct (language_set T P l); [|discriminate]. cbn [bindr] in H, K. congruence.
    - cbn [walk read] in *. congruence.
    - cbn [walk read usual] in *. apply bind_ok in H. destruct H as ([[c b2] Pa] & E1 & H). injection H as _ _ <-.
      exact (lang_list _ G _ _ _ _ _ _ _ _ _ _ _ _ U E1 K).
  Qed.
End Lang.

(** ** The selection *)
Section Select.
  Variables (T : tables) (t : transposer) (s : list Q) (fa : bool) (o : Z).
  Hypothesis OK : tables_ok T.
  Hypothesis U : forall P, uniform T P o.
  Hypothesis SC : tr_scale t = Some s.

  Definition outer (b : body) (pl : place) : Prop := (b = BPlain 0 /\ pl = PAbs) \/ (b = BKeep /\ pl = PKey).

  Definition chosen (x : mtree) : Prop := forall b P d d' pl x' b1 P1 hs pl1 P2,
    whole x = true -> usual false x = true -> outer b pl -> (d' == d)%Q ->
    walk T t fa false b P x = Ok (x', b1, P1) -> read T s fa d pl P x = Ok (hs, pl1, P2) ->
    pl1 = pl /\ exists hs', read T s fa d' pl P x' = Ok (hs', pl, P1) /\
      (references_kept t hs -> edited t (marks x) hs hs').
  Definition chosens (l : list mtree) : Prop := forall b P d d' pl l' b1 P1 hs pl1 P2,
    forallb whole l = true -> forallb (usual false) l = true -> outer b pl -> (d' == d)%Q ->
    walks (walk T t fa) false b P l = Ok (l', b1, P1) -> read_all (read T s fa) d pl P l = Ok (hs, pl1, P2) ->
    pl1 = pl /\ exists hs', read_all (read T s fa) d' pl P l' = Ok (hs', pl, P1) /\
      (references_kept t hs -> edited t (flat_map marks l) hs hs').

  Lemma outer_plain b pl : outer b pl -> inrel_of b = false.
  Proof. intros [[-> _]|[-> _]]; reflexivity. Qed.

  Lemma chosen_list l : Forall chosen l -> chosens l.
  Proof.
    induction 1 as [|x r M _ IH]; intros b P d d' pl l' b1 P1 hs pl1 P2 W V I D H K; cbn [walks read_all] in *.
    - injection H as <- <- <-. injection K as <- <- <-. split; [reflexivity|]. exists []. split; [reflexivity|]. constructor.
    - fold (walks (walk T t fa)) in H. fold (read_all (read T s fa)) in K. cbn [forallb] in W, V.
      apply andb_prop in W. destruct W as [W1 W2]. apply andb_prop in V. destruct V as [V1 V2].
      apply bind_ok in H. destruct H as ([[x' b2] Pa] & E1 & H). apply bind_ok in H. destruct H as ([[r' b3] Pb] & E2 & H). injection H as <- <- <-.
      apply bind_ok in K. destruct K as ([[h1 p1] Pc] & F1 & K). apply bind_ok in K. destruct K as ([[h2 p2] Pd] & F2 & K). injection K as <- <- <-.
      pose proof (plain_state _ _ _ _ _ _ _ _ _ _ (outer_plain _ _ I) E1) as ->.
      pose proof (all_same_lang _ _ _ _ _ _ _ _ _ _ _ _ _ _ _ _ _ V1 E1 F1) as ->.
      destruct (M _ _ _ _ _ _ _ _ _ _ _ W1 V1 I D E1 F1) as (-> & k1 & X1 & Y1).
      destruct (IH _ _ _ _ _ _ _ _ _ _ _ W2 V2 I D E2 F2) as (-> & k2 & X2 & Y2).
      split; [reflexivity|]. exists (k1 ++ k2). cbn [read_all]. fold (read_all (read T s fa)). rewrite X1. cbn [bindr]. rewrite X2. cbn [bindr]. split; [reflexivity|].
      intros RK. apply references_app in RK. cbn [flat_map]. apply edited_app; tauto.
  Qed.

  Lemma outer_inv b pl : outer b pl -> place_inv b pl pl /\ agree b pl pl.
  Proof. intros [[-> ->]|[-> ->]]; cbn; auto 10. Qed.

  (** A node that is in the range as a whole, or not at all. *)
  Lemma chosen_block x : (full x = true \/ untouched x = true) ->
    (forall x', same_but_pitches x x' -> forall pl d P hs pl1 P1, read T s fa d pl P x' = Ok (hs, pl1, P1) -> pl1 = pl) ->
    chosen x.
  Proof.
    intros F S b P d d' pl x' b1 P1 hs pl1 P2 _ V I D H K. destruct (outer_inv _ _ I) as [I1 I2].
    pose proof (outer_plain _ _ I) as IB. pose proof (walk_frame _ _ _ _ _ _ _ _ _ _ H) as SB.
    pose proof (S _ (same_refl x) _ _ _ _ _ _ K) as ->. split; [reflexivity|].
    pose proof (all_same_lang _ _ _ _ _ _ _ _ _ _ _ _ _ _ _ _ _ V H K) as ->.
    destruct (all_move _ _ _ x _ _ _ _ _ _ _ D K) as (L & k & X & Y).
    destruct F as [F|F].
    - assert (NR : is_rel b = false) by (destruct b; try reflexivity; discriminate).
      rewrite <- NR in H. rewrite <- IB in V.
      destruct (all_good T t s fa o OK U SC x _ _ _ _ _ _ _ _ _ F V I1 D H) as (h1 & p1 & h1' & p1' & R1 & R2 & _ & _ & A).
      rewrite K in R1. injection R1 as <- <-. pose proof (S _ SB _ _ _ _ _ _ R2) as ->.
      exists h1'. split; [exact R2|]. intros RK. apply edited_full; [now apply full_marks|exact L|]. now apply A.
    - assert (x' = x) as -> by (apply untouched_same; [exact F|exact SB]).
      exists k. split; [exact X|]. intros _. apply edited_none; [now apply untouched_marks|exact L|exact Y].
  Qed.

  Lemma outer_abs : outer (BPlain 0) PAbs.
  Proof. now left. Qed.
  Lemma outer_key : outer BKeep PKey.
  Proof. now right. Qed.

  (** A pitch in absolute music or in \key. *)
  Lemma chosen_pitch b P d d' pl n n' b' h pl1 : outer b pl -> (d' == d)%Q ->
    on_note T t P b n = Ok (n', b') -> read_pitch T d P pl (r_node n) = Ok (h, pl1) ->
    pl1 = pl /\ exists h', read_pitch T d' P pl (r_node n') = Ok (h', pl) /\
      (if r_writable n then heard_transposed t h h' else heard_same h h').
  Proof.
    intros I D H K. assert (pl1 = pl) as ->.
    { destruct I as [[-> ->]|[-> ->]]; cbn [read_pitch] in K; apply bind_ok in K; destruct K as (p & _ & K); now injection K. }
    split; [reflexivity|]. destruct (r_writable n) eqn:W.
    - destruct (outer_inv _ _ I) as [I1 I2].
      destruct (on_note_spec T t o OK U _ _ d d' _ _ _ _ _ W I1 D H) as (h1 & p1 & h1' & p1' & R1 & R2 & _ & _ & A).
      rewrite K in R1. injection R1 as <- <-. exists h1'. assert (p1' = pl) as ->.
      { destruct I as [[-> ->]|[-> ->]]; cbn [read_pitch] in R2; apply bind_ok in R2; destruct R2 as (p & _ & R2); now injection R2. }
      split; [exact R2|]. now apply A.
    - destruct (on_note_frame _ _ _ _ _ _ _ H) as [_ E]. rewrite (E W).
      destruct (read_pitch_moves _ d d' _ _ _ _ _ D K) as (h' & X & Y). now exists h'.
  Qed.

  Lemma all_chosen x : chosen x.
  Proof.
    induction x as [n ch G|ch G|ch G|ch G|ch G|ch G|ch|ch G|ch G|l| |ch G] using mtree_rect';
      intros b P d d' pl x' b1 P1 hs pl1 P2 W V I D H K.
    - cbn [walk read usual whole marks] in *. apply bind_ok in H. destruct H as ([n' b'] & E0 & H).
      apply bind_ok in H. destruct H as ([[c b2] Pa] & E1 & H). injection H as <- <- <-.
      apply bind_ok in K. destruct K as ([h p] & F0 & K). apply bind_ok in K. destruct K as ([[h1 p1] Pc] & F1 & K). injection K as <- <- <-.
      destruct (chosen_pitch _ _ _ _ _ _ _ _ _ _ I D E0 F0) as (-> & h' & X0 & Y0). split; [reflexivity|].
      destruct (chosen_list _ G _ _ _ 0%Q _ _ _ _ _ _ _ W V outer_abs (Qeq_refl _) E1 F1) as (-> & k & X & Y).
      exists (h' :: k). cbn [read]. rewrite X0. cbn [bindr]. rewrite X. split; [reflexivity|]. intros RK.
      assert (Y1 : edited t (flat_map marks ch) h1 k) by (apply Y; intros r q J; apply RK; now right).
      destruct (r_writable n); constructor; assumption.
    - cbn [walk read usual whole marks] in *. apply bind_ok in H. destruct H as ([[c b2] Pa] & E1 & H). injection H as <- <- <-.
      apply bind_ok in K. destruct K as ([[h1 p1] Pc] & F1 & K). injection K as <- <- <-. split; [reflexivity|].
      destruct (chosen_list _ G _ _ _ _ _ _ _ _ _ _ _ W V outer_key D E1 F1) as (-> & k & X & Y).
      exists k. cbn [read]. rewrite X. now split.
    - cbn [walk read usual whole marks] in *. apply bind_ok in H. destruct H as ([[c b2] Pa] & E1 & H). injection H as <- <- <-.
      apply bind_ok in K. destruct K as ([[h1 p1] Pc] & F1 & K). injection K as <- <- <-. split; [reflexivity|].
      destruct (chosen_list _ G _ _ _ _ _ _ _ _ _ _ _ W V outer_abs D E1 F1) as (-> & k & X & Y).
      exists k. cbn [read]. rewrite X. now split.
    - refine (chosen_block (MRelative ch) _ _ _ _ _ _ _ _ _ _ _ _ _ W V I D H K).
      + cbn [whole] in W. now apply orb_prop in W.
      + intros y S. inversion S as [| | |? ? F| | | | | |? X]; subst; [|contradiction]. intros. rewrite read_relative in *.
        match goal with E : bindr _ _ = Ok _ |- _ => apply bind_ok in E; destruct E as ([? ?] & _ & E); now injection E end.
    - refine (chosen_block (MFixed ch) _ _ _ _ _ _ _ _ _ _ _ _ _ W V I D H K).
      + cbn [whole] in W. now apply orb_prop in W.
      + intros y S. inversion S as [| | | |? ? F| | | | |? X]; subst; [|contradiction]. intros. rewrite read_fixed in *.
        match goal with E : bindr _ _ = Ok _ |- _ => apply bind_ok in E; destruct E as ([? ?] & _ & E); now injection E end.
    - cbn [usual whole] in V, W. apply andb_prop in V. destruct V as [V V3]. apply andb_prop in V. destruct V as [V1 V2].
      apply andb_prop in W. destruct W as [W W3].
      destruct ch as [|[n c| | | | | | | | | | |] ch]; try discriminate. destruct c; [|discriminate].
      destruct ch as [|[m c| | | | | | | | | | |] rest]; try discriminate. destruct c; [|discriminate].
      cbn [forallb usual whole andb] in V3, W3. apply eqb_prop in W.
      inversion G as [|? ? _ G1]; subst. inversion G1 as [|? ? _ GR]; subst. clear G G1.
      cbn [walk walks on_note read] in H, K.
      apply bind_ok in H. destruct H as ([[y' by'] Py] & EY & H). apply bind_ok in EY. destruct EY as ([n' bn] & EN & EY).
      apply bind_ok in EN. destruct EN as (n1 & EN & E'). injection E' as -> <-. cbn [bindr] in EY. injection EY as <- _ <-.
      apply bind_ok in H. destruct H as ([[z' bz'] Pz] & EZ & H). apply bind_ok in EZ. destruct EZ as ([m' bm] & EM & EZ).
      apply bind_ok in EM. destruct EM as (m1 & EM & E'). injection E' as -> <-. cbn [bindr] in EZ. injection EZ as <- _ <-.
      apply bind_ok in H. destruct H as ([[c b2] Pa] & E1 & H). injection H as <- <- <-.
      apply bind_ok in K. destruct K as ([h1 Pc] & F1 & K). injection K as <- <- <-.
      apply bind_ok in F1. destruct F1 as (p & RN & F1). apply bind_ok in F1. destruct F1 as (u & RM & F1).
      apply bind_ok in F1. destruct F1 as ([[h2 p2] Pd] & F1 & F2). injection F2 as <- <-.
      assert (PP : (match pl with PRel _ => PAbs | _ => pl end) = pl) by (destruct I as [[-> ->]|[-> ->]]; reflexivity).
      rewrite PP in F1. split; [reflexivity|].
      assert (A : exists p' u', read_node T P (r_node n') = Ok p' /\ read_node T P (r_node m') = Ok u' /\
        (d' + (height s u' - height s p') == d + (height s u - height s p))%Q).
      { destruct (r_writable m) eqn:WM; rename W into WN.
        - destruct (transpose_pitch_spec _ _ _ _ _ _ OK EN) as (_ & _ & XN). destruct (XN WN) as (p0 & q & p' & R1 & T1 & R1' & PE1).
          destruct (transpose_pitch_spec _ _ _ _ _ _ OK EM) as (_ & _ & XM). destruct (XM WM) as (u0 & v & u' & R2 & T2 & R2' & PE2).
          rewrite RN in R1. injection R1 as <-. rewrite RM in R2. injection R2 as <-. exists p', u'. split; [exact R1'|]. split; [exact R2'|].
          rewrite (peq_height s _ _ PE1), (peq_height s _ _ PE2), D.
          pose proof (transpose_height _ _ _ _ SC T1) as H1. pose proof (transpose_height _ _ _ _ SC T2) as H2.
          assert (LO : forall w, (height s (lower_octave (tr_octave t) w) == height s w - inject_Z (6 * tr_octave t))%Q).
          { intros w. unfold height, lower_octave, with_octave. cbn [octave note alter].
            replace (6 * (octave w - tr_octave t)) with (6 * octave w - 6 * tr_octave t) by lia.
            unfold Z.sub. rewrite inject_Z_plus, inject_Z_opp. ring. }
          rewrite !LO, H1, H2. ring.
        - destruct (transpose_pitch_frame _ _ _ _ _ _ EN) as [_ XN]. destruct (transpose_pitch_frame _ _ _ _ _ _ EM) as [_ XM].
          rewrite (XN WN), (XM WM). exists p, u. split; [exact RN|]. split; [exact RM|]. rewrite D. ring. }
      destruct A as (p' & u' & RN' & RM' & D2).
      destruct (chosen_list _ GR _ _ _ _ _ _ _ _ _ _ _ W3 V3 I D2 E1 F1) as (-> & k & X & Y).
      exists k. cbn [read]. rewrite RN'. cbn [bindr]. rewrite RM'. cbn [bindr]. rewrite PP, X. cbn [bindr marks]. now split.
    - cbn [walk read] in *. injection H as <- <- <-. injection K as <- <- <-. split; [reflexivity|]. exists []. split; [reflexivity|]. constructor.
    - cbn [walk read usual whole marks] in *. apply bind_ok in H. destruct H as ([[c b2] Pa] & E1 & H). injection H as <- <- <-.
      destruct (chosen_list _ G _ _ d d' pl _ _ _ hs pl1 P2 W V I D E1) as (-> & k & X & Y).
      { destruct I as [[-> ->]|[-> ->]]; exact K. }
      split; [reflexivity|]. exists k. split; [|exact Y]. cbn [read]. destruct I as [[-> ->]|[-> ->]]; exact X.
    - cbn [walk read usual whole marks] in *. apply bind_ok in H. destruct H as ([[c b2] Pa] & E1 & H). injection H as <- <- <-.
      destruct (chosen_list _ G _ _ d d' pl _ _ _ hs pl1 P2 W V I D E1) as (-> & k & X & Y).
      { destruct I as [[-> ->]|[-> ->]]; exact K. }
      split; [reflexivity|]. exists k. split; [|exact Y]. cbn [read]. destruct I as [[-> ->]|[-> ->]]; exact X.
    - cbn [walk read] in *. apply bind_ok in H. destruct H as (Pa & E & H). injection H as <- <- <-. rewrite E in K. injection K as <- <- <-.
      split; [reflexivity|]. exists []. cbn [read]. rewrite E. split; [reflexivity|]. constructor.
    - cbn [walk read] in *. injection H as <- <- <-. injection K as <- <- <-. split; [reflexivity|]. exists []. split; [reflexivity|]. constructor.
    - cbn [walk read usual whole marks] in *. apply bind_ok in H. destruct H as ([[c b2] Pa] & E1 & H). injection H as <- <- <-.
      exact (chosen_list _ G _ _ _ _ _ _ _ _ _ _ _ W V I D E1 K).
  Qed.
End Select.

(** Full statement: for every document and range.  Proved: for every document
    as in C125 and every range that does not cut through a \relative or \fixed
    expression.
    Missing for the full claim: ranges that do; for those it is false, see
    C68_relative_pitches_refuted, and C125's excluded documents. *)
Theorem C127_selection_partial : forall T t s o fa P x x' hs,
  tables_ok T -> (forall P', uniform T P' o) -> tr_scale t = Some s ->
  whole x = true -> usual false x = true ->
  transpose_doc T t fa P x = Ok x' -> meaning T s fa P x = Ok hs ->
  exists hs', meaning T s fa P x' = Ok hs' /\ List.length (marks x) = List.length hs /\
    (references_kept t hs -> edited t (marks x) hs hs').
Proof.
  intros T t s o fa P x x' hs OK U SC W V H K. unfold transpose_doc in H. unfold meaning in *.
  apply bind_ok in H. destruct H as ([[y b1] P1] & E & H). injection H as ->.
  apply bind_ok in K. destruct K as ([[h p] P2] & F & K). injection K as ->.
  destruct (all_chosen T t s fa o OK U SC x _ _ _ 0%Q _ _ _ _ _ _ _ W V outer_abs (Qeq_refl _) E F) as (-> & hs' & X & Y).
  exists hs'. rewrite X. split; [reflexivity|]. split; [|exact Y].
  exact (proj1 (all_move _ _ _ x _ _ _ _ _ _ _ (Qeq_refl _) F)).
Qed.
Print Assumptions C127_selection_partial.

(** A document that is not in the range at all does not change, whatever is in
    it. *)
Theorem C127_nothing : forall T t fa P x x', untouched x = true -> transpose_doc T t fa P x = Ok x' -> x' = x.
Proof. intros T t fa P x x' U H. apply untouched_same; [exact U|exact (C125_only_pitches _ _ _ _ _ _ H)]. Qed.
Print Assumptions C127_nothing.

(** The example: c d \relative c' { d } \relative c' { d } \key d
    \transpose c d { e f }, with the second note, the first \relative, and the
    music in \transpose but its last note in the range. *)
Definition off (x : mtree) : mtree := match x with MPitch n c => MPitch (RNote (r_node n) false) c | _ => x end.
Definition ex_part (a b c : string) : mtree := MOther
  [off (nt "c" 0); nt a 0; MRelative [nt b 1; MOther [nt a 0]]; MRelative [off (nt "c" 1); MOther [off (nt "d" 0)]];
   MKey [off (nt "d" 0)]; MTranspose [off (nt "c" 0); off (nt "d" 0); MOther [nt c 0; off (nt "f" 0)]]].

Example C127_witness :
  let t := major_transposer c0 (Pitch (-1) 3 0) in
  let x := ex_part "d" "c" "e" in
  whole x = true /\ usual false x = true /\ tr_scale t = Some major_scale /\
  transpose_doc ex_tables t true default_processor x = Ok (ex_part "g" "f" "a") /\
  marks x = [false; true; true; true; false; false; false; true; false] /\
  exists hs, meaning ex_tables major_scale true default_processor x = Ok hs /\ references_kept t hs.
Proof.
  cbv zeta. repeat (split; [vm_compute; reflexivity|]). eexists. split; [vm_compute; reflexivity|].
  intros r q I. repeat destruct I as [I|I]; try discriminate; contradiction.
Qed.

(** The range cuts through \relative c' { f e }: only the f is transposed, but
    the e sounds an octave higher. *)
Theorem C127_cut_refuted :
  let t := major_transposer c0 (Pitch (-1) 4 0) in
  let x := MRelative [off (nt "c" 1); MOther [nt "f" 0; off (nt "e" 0)]] in
  exists x' hs hs', usual false x = true /\ transpose_doc ex_tables t true default_processor x = Ok x' /\
    meaning ex_tables major_scale true default_processor x = Ok hs /\
    meaning ex_tables major_scale true default_processor x' = Ok hs' /\
    references_kept t hs /\ ~ edited t (marks x) hs hs'.
Proof.
  cbv zeta. do 3 eexists. split; [reflexivity|]. repeat (split; [vm_compute; reflexivity|]). split.
  - intros r q I. repeat destruct I as [I|I]; try discriminate; contradiction.
  - intros H. vm_compute in H.
    repeat match goal with H : edited _ _ _ _ |- _ => inversion H; clear H; subst end;
    match goal with H : heard_same (Sound _ _) _ |- _ => solve [let E := fresh "E" in destruct H as [E _]; discriminate E] end.
Qed.
Print Assumptions C127_cut_refuted.
