(** Proofs about Abs2rel_Model. *)
From Coq Require Import String Ascii List ZArith QArith Bool Lia.
From Verif Require Import Base Pitch_Model Pitch_Spec Pitch_Proofs Transpose_Spec Relative_Model Relative_Spec Relative_Proofs Abs2rel_Model Abs2rel_Spec.
Import ListNotations.
Open Scope Z_scope.

Lemma tree_ind2 (Q : tree -> Prop) :
  (forall n l, Forall Q l -> Q (TNote n l)) -> (forall s, Q (TLang s)) -> (forall k l, Forall Q l -> Q (TNode k l)) -> forall t, Q t.
Proof.
  intros H1 H2 H3. fix IH 1. intros [n l|s|k l].
  - apply H1. induction l as [|x r IHr]; constructor; [apply IH|exact IHr].
  - apply H2.
  - apply H3. induction l as [|x r IHr]; constructor; [apply IH|exact IHr].
Qed.

Section E.
  Context (T : tables) (fa ws : bool).

  Fixpoint relative_trees (l : list tree) (P : processor) (last : option pitch) (new : option pnode) :=
    match l with
    | [] => Ok ([], last, new, P)
    | x :: r => let! (x', last, new, P) := relative_tree T fa ws x P last new in
                let! (r', last, new, P) := relative_trees r P last new in Ok (x' :: r', last, new, P)
    end.
  Lemma relative_tree_node k l P last new : relative_tree T fa ws (TNode k l) P last new =
    match k with
    | KChord | KOpaque | KFixed => Ok (TNode k l, last, new, P)
    | _ => let! (l', last, new, P) := relative_trees l P last new in Ok (TNode k l', last, new, P)
    end.
  Proof. destruct k; reflexivity. Qed.

  Lemma relative_note_bare P n last new m p new' : relative_note T P fa ws n last new = Ok (m, p, new') -> bare_note m = bare_note n.
  Proof.
    unfold relative_note. destruct (read_node T P n) as [p1|] eqn:R; [|discriminate]. cbn [bindr].
    destruct (match last with Some q => Ok (q, new) | None => first_pitch T P fa ws p1 end) as [[prev new2]|] eqn:F; [|discriminate]. cbn [bindr].
    pose proof R as R0. unfold read_node in R0. destruct (pitch_of_name T P (head n)) as [q|] eqn:E; [|discriminate].
    destruct (relative_step T P n q p1 prev E R) as (m1 & A & _ & C & _). rewrite A. cbn [bindr]. intros [= <- <- <-]. exact C.
  Qed.

  Lemma relative_tree_bare t : forall P last new t' last' new' P', relative_tree T fa ws t P last new = Ok (t', last', new', P') -> bare_tree t' = bare_tree t.
  Proof.
    induction t as [n l _|s|k l IH] using tree_ind2; intros P last new t' last' new' P'.
    - cbn [relative_tree]. destruct (relative_note T P fa ws n last new) as [[[m p] nw]|] eqn:E; [|discriminate]. cbn [bindr]. intros [= <- <- <- <-].
      cbn [bare_tree]. now rewrite (relative_note_bare _ _ _ _ _ _ _ E).
    - cbn [relative_tree]. destruct (language_set T P s); [|discriminate]. cbn [bindr]. now intros [= <- <- <- <-].
    - rewrite relative_tree_node.
      assert (X : forall P last new l' last' new' P', relative_trees l P last new = Ok (l', last', new', P') -> map bare_tree l' = map bare_tree l).
      { clear P last new t' last' new' P'. induction IH as [|x r IHx _ IHr]; intros P last new l' last' new' P'; cbn [relative_trees].
        - now intros [= <- <- <- <-].
        - destruct (relative_tree T fa ws x P last new) as [[[[x1 la] nw] P1]|] eqn:E1; [|discriminate]. cbn [bindr].
          destruct (relative_trees r P1 la nw) as [[[[r1 la2] nw2] P2]|] eqn:E2; [|discriminate]. cbn [bindr]. intros [= <- <- <- <-]. cbn [map].
          now rewrite (IHx _ _ _ _ _ _ _ E1), (IHr _ _ _ _ _ _ _ E2). }
      destruct k; try (now intros [= <- <- <- <-]);
      (destruct (relative_trees l P last new) as [[[[l1 la] nw] P1]|] eqn:E1; [|discriminate]; cbn [bindr]; intros [= <- <- <- <-]; cbn [bare_tree]; now rewrite (X _ _ _ _ _ _ _ E1)).
  Qed.

  Variables inr whole : list nat -> bool.

  Definition wants (p : list nat) (t : tree) : bool :=
    match t with
    | TNode KChordMode _ => true
    | TNode KList l => existsb is_note l && whole p
    | _ => false
    end.
  Definition is_rel (t : tree) : bool := match t with TNode KRelative _ => true | _ => false end.
  Definition with_kids (t : tree) (l : list tree) : tree :=
    match t with TNote n _ => TNote n l | TLang s => TLang s | TNode k _ => TNode k l end.

  Lemma edit_tree_eq p t P : edit_tree T fa ws inr whole p t P =
    if inr p then
      if wants p t then make_relative_tree T fa ws t P
      else if is_rel t then Ok (t, P)
      else let! (l', P) := edit_trees T fa ws inr whole p 0 (kids t) P in Ok (with_kids t l', P)
    else Ok (t, P).
  Proof.
    assert (G : forall l i P, (fix go (i : nat) l P := match l with
      | [] => Ok ([], P)
      | x :: r => let! (x', P) := edit_tree T fa ws inr whole (p ++ [i]) x P in
                  let! (r', P) := go (S i) r P in Ok (x' :: r', P)
      end) i l P = edit_trees T fa ws inr whole p i l P).
    { induction l as [|x r IH]; intros i P1; [reflexivity|]. cbn [edit_trees]. destruct (edit_tree T fa ws inr whole (p ++ [i]) x P1) as [[x' P2]|]; [|reflexivity]. cbn [bindr]. now rewrite IH. }
    destruct t as [n l|s|k l]; cbn [edit_tree wants is_rel kids with_kids edit_trees]; [|destruct (inr p); reflexivity|destruct k]; rewrite ?G; try reflexivity; destruct (inr p); try reflexivity.
  Qed.

  (** A node in a tree, by the trail from it. *)
  Fixpoint sub (t : tree) (q : list nat) : option tree :=
    match q with [] => Some t | i :: q => match nth_error (kids t) i with Some u => sub u q | None => None end end.
  Lemma at_trail_sub l i q : at_trail l (i :: q) = match nth_error l i with Some t => sub t q | None => None end.
  Proof.
    revert l i. induction q as [|j q IH]; intros l i; cbn [at_trail sub].
    - now destruct (nth_error l i).
    - destruct (nth_error l i) as [t|]; [|reflexivity]. rewrite <- IH. reflexivity.
  Qed.

  (** Whether the node at [q] below [t], which is at [p], is chosen. *)
  Fixpoint picked (p : list nat) (t : tree) (q : list nat) : bool :=
    inr p && match q with
    | [] => wants p t
    | i :: q => negb (wants p t) && negb (is_rel t) && match nth_error (kids t) i with Some u => picked (p ++ [i]) u q | None => false end
    end.

  Definition pick (l : list tree) (p : list nat) : bool :=
    match p with [] => false | i :: q => match nth_error l i with Some t => picked [i] t q | None => false end end.

  Lemma picked_spec q : forall p t, picked p t q = true <->
    (exists u, sub t q = Some u /\ wants (p ++ q) u = true) /\ inr (p ++ q) = true /\
    forall q1 q2, q = q1 ++ q2 -> q2 <> [] -> inr (p ++ q1) = true /\ exists u, sub t q1 = Some u /\ wants (p ++ q1) u = false /\ is_rel u = false.
  Proof.
    induction q as [|i q IH]; intros p t; cbn [picked].
    - rewrite app_nil_r, andb_true_iff. cbn [sub]. split.
      + intros [A B]. split; [now exists t|]. split; [exact A|]. intros [|] [|]; try discriminate. intros _ []. reflexivity.
      + intros ((u & [= <-] & B) & A & _). auto.
    - rewrite !andb_true_iff, !negb_true_iff. cbn [sub]. split.
      + intros (A & (B & C) & D). destruct (nth_error (kids t) i) as [u|] eqn:N; [|discriminate].
        apply IH in D. rewrite <- app_assoc in D. cbn [app] in D. destruct D as (D1 & D2 & D3). split; [exact D1|]. split; [exact D2|].
        intros [|j q1] q2 E NE; cbn [app] in E.
        * rewrite app_nil_r. split; [exact A|]. exists t. auto.
        * injection E as <- E. destruct (D3 q1 q2 E NE) as (F1 & F2). rewrite <- app_assoc in F1. cbn [app] in F1. split; [exact F1|].
          cbn [sub]. rewrite N. rewrite <- app_assoc in F2. exact F2.
      + intros ((u & S & W) & I & H). destruct (nth_error (kids t) i) as [v|] eqn:N; [|discriminate].
        destruct (H [] (i :: q) eq_refl ltac:(discriminate)) as (H1 & u1 & H2 & H3 & H4). rewrite app_nil_r in *. cbn [sub] in H2. injection H2 as <-.
        split; [exact H1|]. split; [split; assumption|]. apply IH. rewrite <- app_assoc. cbn [app]. split; [now exists u|]. split; [exact I|].
        intros q1 q2 E NE. destruct (H (i :: q1) q2 ltac:(now rewrite E) NE) as (K1 & u2 & K2). cbn [sub] in K2. rewrite N in K2. rewrite <- app_assoc. cbn [app]. split; [exact K1|]. exists u2. exact K2.
  Qed.

  Lemma wants_spec l p : wanted whole l p <-> exists u, at_trail l p = Some u /\ wants p u = true.
  Proof.
    unfold wanted. split.
    - intros [(m & A & (n & k & I) & W)|(m & A)]; eexists; (split; [exact A|]); [|reflexivity]. cbn [wants]. rewrite W, andb_true_r. apply existsb_exists. exists (TNote n k). now split.
    - intros (u & A & W). destruct u as [| |k m]; try discriminate. destruct k; try discriminate; [left|right; now exists m].
      cbn [wants] in W. apply andb_prop in W as [W1 W2]. apply existsb_exists in W1 as (x & I & X). destruct x; try discriminate. exists m. split; [exact A|]. split; [eauto|exact W2].
  Qed.

  Lemma at_prefix l q r : q <> [] -> at_trail l (q ++ r) <> None -> at_trail l q <> None.
  Proof.
    destruct q as [|i q]; [congruence|]. intros _. cbn [app]. rewrite !at_trail_sub. destruct (nth_error l i) as [t|]; [|tauto]. revert t. clear l i.
    induction q as [|i q IH]; intros t; cbn [sub app]; [discriminate|]. destruct (nth_error (kids t) i); [apply IH|tauto].
  Qed.

  Lemma pick_spec l p : pick l p = true <-> chosen inr whole l p.
  Proof.
    unfold chosen. destruct p as [|i q]; cbn [pick].
    - split; [discriminate|]. rewrite wants_spec. intros ((u & A & _) & _). discriminate A.
    - destruct (nth_error l i) as [t|] eqn:N.
      + rewrite picked_spec. cbn [app]. assert (AT : forall q1, at_trail l (i :: q1) = sub t q1) by (intros q1; now rewrite at_trail_sub, N).
        split.
        * intros ((u & S & W) & I & H). split; [apply wants_spec; exists u; rewrite AT; auto|]. split; [exact I|].
          intros [|j q1] (NE & r & NR & E); [congruence|]. cbn [app] in E. injection E as <- E. destruct (H q1 r E NR) as (H1 & u1 & H2 & H3 & H4). split; [exact H1|]. split.
          -- rewrite wants_spec. intros (u2 & A & B). rewrite AT in A. congruence.
          -- intros (m & A). rewrite AT in A. assert (u1 = TNode KRelative m) by congruence. subst u1. discriminate H4.
        * intros (W & I & H). apply wants_spec in W as (u & A & W). rewrite AT in A. split; [now exists u|]. split; [exact I|].
          intros q1 q2 E NE. destruct (H (i :: q1)) as (H1 & H2 & H3).
          { split; [discriminate|]. exists q2. split; [exact NE|]. now rewrite E. }
          split; [exact H1|].
          assert (S1 : sub t q1 <> None).
          { rewrite <- AT. apply (at_prefix l (i :: q1) q2); [discriminate|]. cbn [app]. rewrite <- E, AT. congruence. }
          destruct (sub t q1) as [u1|] eqn:S; [|congruence]. exists u1. split; [reflexivity|]. split.
          -- destruct (wants (i :: q1) u1) eqn:W1; [|reflexivity]. elim H2. apply wants_spec. exists u1. rewrite AT. auto.
          -- destruct u1 as [| |k m]; try reflexivity. destruct k; try reflexivity. elim H3. exists m. now rewrite AT.
      + split; [discriminate|]. rewrite wants_spec. intros ((u & A & _) & _). rewrite at_trail_sub, N in A. discriminate A.
  Qed.

  Lemma edit_trees_nth l : forall p i P l' P', edit_trees T fa ws inr whole p i l P = Ok (l', P') ->
    List.length l' = List.length l /\ forall j t, nth_error l j = Some t -> exists t' P1 P2, nth_error l' j = Some t' /\ edit_tree T fa ws inr whole (p ++ [(i + j)%nat]) t P1 = Ok (t', P2).
  Proof.
    induction l as [|x r IH]; intros p i P l' P'; cbn [edit_trees].
    - intros [= <- <-]. split; [reflexivity|]. intros [|j] t; discriminate.
    - destruct (edit_tree T fa ws inr whole (p ++ [i]) x P) as [[x' P1]|] eqn:E1; [|discriminate]. cbn [bindr].
      destruct (edit_trees T fa ws inr whole p (S i) r P1) as [[r' P2]|] eqn:E2; [|discriminate]. cbn [bindr]. intros [= <- <-].
      destruct (IH _ _ _ _ _ E2) as (L & H). split; [cbn; now rewrite L|]. intros [|j] t; cbn [nth_error].
      + intros [= <-]. rewrite Nat.add_0_r. eauto.
      + intros N. destruct (H j t N) as (t' & Pa & Pb & A & B). exists t', Pa, Pb. split; [exact A|]. replace (i + S j)%nat with (S i + j)%nat by lia. exact B.
  Qed.

  Lemma made_tree t P u P' : make_relative_tree T fa ws t P = Ok (u, P') -> made_relative t u.
  Proof.
    unfold make_relative_tree. destruct (relative_tree T fa ws t P None None) as [[[[t' la] nw] P1]|] eqn:E; [|discriminate]. cbn [bindr]. intros [= <- <-].
    exists (match nw with Some n => [TNote n []] | None => [] end), t'. split; [reflexivity|]. split; [exact (relative_tree_bare _ _ _ _ _ _ _ _ E)|]. destruct nw; eauto.
  Qed.

  Lemma edit_kids p t P l' P' : edit_trees T fa ws inr whole p 0 (kids t) P = Ok (l', P') -> kids (with_kids t l') = l'.
  Proof. intros E. destruct t; [reflexivity| |reflexivity]. cbn in E. now injection E as <- <-. Qed.

  Lemma edit_picked q : forall p t P t' P', edit_tree T fa ws inr whole p t P = Ok (t', P') -> picked p t q = true ->
    exists u u', sub t q = Some u /\ sub t' q = Some u' /\ made_relative u u'.
  Proof.
    induction q as [|i q IH]; intros p t P t' P'; rewrite edit_tree_eq; cbn [picked sub].
    - intros E H. apply andb_prop in H as [H1 H2]. rewrite H1, H2 in E. exists t, t'. split; [reflexivity|]. split; [reflexivity|]. exact (made_tree _ _ _ _ E).
    - intros E H. rewrite !andb_true_iff, !negb_true_iff in H. destruct H as (H1 & (H2 & H3) & H4). rewrite H1, H2, H3 in E.
      destruct (edit_trees T fa ws inr whole p 0 (kids t) P) as [[l' P1]|] eqn:E1; [|discriminate]. cbn [bindr] in E. injection E as <- <-. rewrite (edit_kids _ _ _ _ _ E1).
      destruct (nth_error (kids t) i) as [u|] eqn:N; [|discriminate]. destruct (edit_trees_nth _ _ _ _ _ _ E1) as (_ & H). destruct (H i u N) as (u' & Pa & Pb & A & B). rewrite A. exact (IH _ _ _ _ _ B H4).
  Qed.

  Lemma edit_others q : forall p t P t' P', edit_tree T fa ws inr whole p t P = Ok (t', P') ->
    (forall q1 q2, q = q1 ++ q2 -> picked p t q1 = false) -> option_map label (sub t' q) = option_map label (sub t q).
  Proof.
    induction q as [|i q IH]; intros p t P t' P'; rewrite edit_tree_eq.
    - intros E H. specialize (H [] [] eq_refl). cbn [picked] in H. cbn [sub option_map]. destruct (inr p); [|now injection E as <- <-].
      cbn [andb] in H. rewrite H in E. destruct (is_rel t); [now injection E as <- <-|].
      destruct (edit_trees T fa ws inr whole p 0 (kids t) P) as [[l' P1]|]; [|discriminate]. cbn [bindr] in E. injection E as <- <-. now destruct t.
    - intros E H. pose proof (H [] (i :: q) eq_refl) as H0. cbn [picked] in H0. destruct (inr p) eqn:I; [|now injection E as <- <-].
      cbn [andb] in H0. rewrite H0 in E. destruct (is_rel t) eqn:R; [now injection E as <- <-|].
      destruct (edit_trees T fa ws inr whole p 0 (kids t) P) as [[l' P1]|] eqn:E1; [|discriminate]. cbn [bindr] in E. injection E as <- <-. cbn [sub]. rewrite (edit_kids _ _ _ _ _ E1).
      destruct (edit_trees_nth _ _ _ _ _ _ E1) as (L & K). destruct (nth_error (kids t) i) as [u|] eqn:N.
      + destruct (K i u N) as (u' & Pa & Pb & A & B). rewrite A. apply (IH _ _ _ _ _ B). intros q1 q2 Q. specialize (H (i :: q1) q2 ltac:(now rewrite Q)). cbn [picked] in H. now rewrite I, H0, R, N in H.
      + apply nth_error_None in N. rewrite <- L in N. apply nth_error_None in N. now rewrite N.
  Qed.

  (** Editing once more. *)
  Lemma edit_is_note p t P t' P' : edit_tree T fa ws inr whole p t P = Ok (t', P') -> is_note t' = is_note t.
  Proof.
    rewrite edit_tree_eq. destruct (inr p); [|now intros [= <- <-]]. destruct (wants p t) eqn:W.
    - unfold make_relative_tree. destruct (relative_tree T fa ws t P None None) as [[[[t1 la] nw] P1]|]; [|discriminate]. cbn [bindr]. intros [= <- <-]. destruct t; [discriminate|discriminate|reflexivity].
    - destruct (is_rel t); [now intros [= <- <-]|]. destruct (edit_trees T fa ws inr whole p 0 (kids t) P) as [[l' P1]|]; [|discriminate]. cbn [bindr]. intros [= <- <-]. now destruct t.
  Qed.
  Lemma edit_notes l : forall p i P l' P', edit_trees T fa ws inr whole p i l P = Ok (l', P') -> existsb is_note l' = existsb is_note l.
  Proof.
    induction l as [|x r IH]; intros p i P l' P'; cbn [edit_trees]; [now intros [= <- <-]|].
    destruct (edit_tree T fa ws inr whole (p ++ [i]) x P) as [[x' P1]|] eqn:E1; [|discriminate]. cbn [bindr].
    destruct (edit_trees T fa ws inr whole p (S i) r P1) as [[r' P2]|] eqn:E2; [|discriminate]. cbn [bindr]. intros [= <- <-]. cbn [existsb].
    now rewrite (edit_is_note _ _ _ _ _ E1), (IH _ _ _ _ _ E2).
  Qed.

  Lemma edit_again t : forall p P t' P', edit_tree T fa ws inr whole p t P = Ok (t', P') -> forall Q, edit_tree T fa ws inr whole p t' Q = Ok (t', Q).
  Proof.
    assert (G : forall l, Forall (fun t => forall p P t' P', edit_tree T fa ws inr whole p t P = Ok (t', P') -> forall Q, edit_tree T fa ws inr whole p t' Q = Ok (t', Q)) l ->
      forall p i P l' P', edit_trees T fa ws inr whole p i l P = Ok (l', P') -> forall Q, edit_trees T fa ws inr whole p i l' Q = Ok (l', Q)).
    { induction 1 as [|x r IHx _ IHr]; intros p i P l' P'; cbn [edit_trees]; [now intros [= <- <-]|].
      destruct (edit_tree T fa ws inr whole (p ++ [i]) x P) as [[x' P1]|] eqn:E1; [|discriminate]. cbn [bindr].
      destruct (edit_trees T fa ws inr whole p (S i) r P1) as [[r' P2]|] eqn:E2; [|discriminate]. cbn [bindr]. intros [= <- <-] Q. cbn [edit_trees].
      rewrite (IHx _ _ _ _ E1). cbn [bindr]. now rewrite (IHr _ _ _ _ _ E2). }
    assert (H : forall t, Forall (fun t => forall p P t' P', edit_tree T fa ws inr whole p t P = Ok (t', P') -> forall Q, edit_tree T fa ws inr whole p t' Q = Ok (t', Q)) (kids t) ->
      forall p P t' P', edit_tree T fa ws inr whole p t P = Ok (t', P') -> forall Q, edit_tree T fa ws inr whole p t' Q = Ok (t', Q)).
    { clear t. intros t IH p P t' P'. rewrite edit_tree_eq. destruct (inr p) eqn:I; [|intros [= <- <-] Q; now rewrite edit_tree_eq, I].
      destruct (wants p t) eqn:W.
      - unfold make_relative_tree. destruct (relative_tree T fa ws t P None None) as [[[[t1 la] nw] P1]|]; [|discriminate]. cbn [bindr]. intros [= <- <-] Q. rewrite edit_tree_eq, I. reflexivity.
      - destruct (is_rel t) eqn:R; [intros [= <- <-] Q; now rewrite edit_tree_eq, I, W, R|].
        destruct (edit_trees T fa ws inr whole p 0 (kids t) P) as [[l' P1]|] eqn:E; [|discriminate]. cbn [bindr]. intros [= <- <-] Q. rewrite edit_tree_eq, I.
        assert (W1 : wants p (with_kids t l') = false).
        { destruct t as [| |k m]; try reflexivity. destruct k; try reflexivity; [|exact W]. cbn [with_kids wants kids] in *. now rewrite (edit_notes _ _ _ _ _ _ E). }
        assert (R1 : is_rel (with_kids t l') = false) by (destruct t as [| |k m]; exact R).
        rewrite W1, R1, (edit_kids _ _ _ _ _ E), (G _ IH _ _ _ _ _ E). cbn [bindr]. now destruct t. }
    induction t as [n l IH|s|k l IH] using tree_ind2; apply H; [exact IH|constructor|exact IH].
  Qed.
  Lemma edits_again l : forall p i P l' P', edit_trees T fa ws inr whole p i l P = Ok (l', P') -> forall Q, edit_trees T fa ws inr whole p i l' Q = Ok (l', Q).
  Proof.
    induction l as [|x r IH]; intros p i P l' P'; cbn [edit_trees]; [now intros [= <- <-]|].
    destruct (edit_tree T fa ws inr whole (p ++ [i]) x P) as [[x' P1]|] eqn:E1; [|discriminate]. cbn [bindr].
    destruct (edit_trees T fa ws inr whole p (S i) r P1) as [[r' P2]|] eqn:E2; [|discriminate]. cbn [bindr]. intros [= <- <-] Q. cbn [edit_trees].
    rewrite (edit_again _ _ _ _ _ E1). cbn [bindr]. now rewrite (IH _ _ _ _ _ E2).
  Qed.
End E.

Section Sound.
  Context (T : tables) (fa : bool).
  Notation sounds := (sounds T fa).
  Notation sounds_all := (sounds_all T fa).

  Lemma sounds_eq t P c : sounds t P c =
    match t with
    | TNote n l => let! p := note_pitch T P c n in
                   let! (ps, _, P) := sounds_all l P (Fixed 0) in Ok (p :: ps, next c p, P)
    | TLang s => let! P := language_set T P s in Ok ([], c, P)
    | TNode KList l | TNode KOther l => sounds_all l P c
    | TNode KRelative l =>
        match l with
        | TNote n _ :: ((_ :: _) as r) => let! p := read_node T P n in
            let! (ps, _, P) := sounds_all r P (After p) in Ok (ps, c, P)
        | _ => let! p := rel_start T P fa None in let! (ps, _, P) := sounds_all l P (After p) in Ok (ps, c, P)
        end
    | TNode KChordMode l | TNode KOpaque l => let! (ps, _, P) := sounds_all l P (Fixed 0) in Ok (ps, c, P)
    | TNode KFixed l =>
        match l with
        | TNote n _ :: r => let! (ps, _, P) := sounds_all r P (Fixed (node_octave n)) in Ok (ps, c, P)
        | _ => let! (ps, _, P) := sounds_all l P (Fixed 0) in Ok (ps, c, P)
        end
    | TNode KChord l => let! (ps, _, P) := sounds_all l P c in
        Ok (ps, match ps with [] => c | p :: _ => next c p end, P)
    | TNode KCheck l => let! (ps, _, P) := sounds_all l P (Fixed 0) in
        Ok ([], match c, ps with After _, p :: _ => After p | _, _ => c end, P)
    end.
  Proof.
    assert (G : forall l P c, (fix all (l : list tree) P c := match l with
      | [] => Ok ([], c, P)
      | x :: r => let! (ps, c, P) := sounds x P c in
                  let! (qs, c, P) := all r P c in Ok (ps ++ qs, c, P)
      end) l P c = sounds_all l P c) by (induction l as [|x r IH]; intros P1 c1; [reflexivity|]; cbn [Abs2rel_Spec.sounds_all]; destruct (sounds x P1 c1) as [[[ps c2] P2]|]; [|reflexivity]; cbn [bindr]; now rewrite IH).
    destruct t as [n l|s|k l]; cbn [Abs2rel_Spec.sounds]; [now rewrite G|reflexivity|].
    destruct k; rewrite ?G; try reflexivity.
  Qed.

  Fixpoint one_languages (P : processor) (l : list tree) : Prop :=
    match l with [] => True | x :: r => one_language T P x /\ one_languages P r end.
  Lemma one_eq P t : one_language T P t = match t with TLang s => language_set T P s = Ok P | _ => one_languages P (kids t) end.
  Proof.
    assert (G : forall l, (fix all l := match l with [] => True | x :: r => one_language T P x /\ all r end) l = one_languages P l) by (induction l as [|x r IH]; [reflexivity|]; cbn [one_languages]; now rewrite IH).
    destruct t as [n l|s|k l]; cbn [one_language kids]; [apply G|reflexivity|apply G].
  Qed.

  Lemma sounds_same t : forall P c ps c' P', one_language T P t -> sounds t P c = Ok (ps, c', P') ->
    P' = P /\ (forall k, c = Fixed k -> c' = Fixed k).
  Proof.
    assert (G : forall l, Forall (fun t => forall P c ps c' P', one_language T P t -> sounds t P c = Ok (ps, c', P') -> P' = P /\ (forall k, c = Fixed k -> c' = Fixed k)) l ->
      forall P c ps c' P', one_languages P l -> sounds_all l P c = Ok (ps, c', P') -> P' = P /\ (forall k, c = Fixed k -> c' = Fixed k)).
    { induction 1 as [|x r IHx _ IHr]; intros P c ps c' P'; cbn [Abs2rel_Spec.sounds_all one_languages]; [intros _ [= <- <- <-]; auto|]. intros [O1 O2].
      destruct (sounds x P c) as [[[ps1 c1] P1]|] eqn:E1; [|discriminate]. cbn [bindr]. destruct (IHx _ _ _ _ _ O1 E1) as (-> & F1).
      destruct (sounds_all r P c1) as [[[ps2 c2] P2]|] eqn:E2; [|discriminate]. cbn [bindr]. destruct (IHr _ _ _ _ _ O2 E2) as (-> & F2). intros [= <- <- <-]. split; [reflexivity|]. auto. }
    induction t as [n l IH|s|k l IH] using tree_ind2; intros P c ps c' P'; rewrite sounds_eq, one_eq; cbn [kids].
    - intros O. destruct (note_pitch T P c n); [|discriminate]. cbn [bindr]. destruct (sounds_all l P (Fixed 0)) as [[[ps1 c1] P1]|] eqn:E1; [|discriminate]. cbn [bindr].
      destruct (G _ IH _ _ _ _ _ O E1) as (-> & _). intros [= <- <- <-]. split; [reflexivity|]. intros k ->. reflexivity.
    - intros ->. cbn [bindr]. intros [= <- <- <-]. auto.
    - intros O. destruct k.
      + apply (G _ IH). exact O.
      + assert (X : forall q m, (m = l \/ exists y, l = y :: m) -> (let! (ps, _, P1) := sounds_all m P (After q) in Ok (ps, c, P1)) = Ok (ps, c', P') -> P' = P /\ (forall k, c = Fixed k -> c' = Fixed k)).
        { intros q m HM. destruct (sounds_all m P (After q)) as [[[ps1 c1] P1]|] eqn:E1; [|discriminate]. cbn [bindr]. intros [= <- <- <-]. split; [|auto].
          destruct HM as [->|(y & ->)]; [now destruct (G _ IH _ _ _ _ _ O E1)|]. apply Forall_cons_iff in IH as [_ IH]. destruct O as [_ O]. now destruct (G _ IH _ _ _ _ _ O E1). }
        destruct l as [|[n m|s|k m] [|y r]]; try (cbn [rel_start bindr]; apply X; auto).
        destruct (read_node T P n); [|discriminate]. cbn [bindr]. apply X. eauto.
      + destruct (sounds_all l P (Fixed 0)) as [[[ps1 c1] P1]|] eqn:E1; [|discriminate]. cbn [bindr]. intros [= <- <- <-]. destruct (G _ IH _ _ _ _ _ O E1). auto.
      + assert (X : forall q m, (m = l \/ exists y, l = y :: m) -> (let! (ps, _, P1) := sounds_all m P q in Ok (ps, c, P1)) = Ok (ps, c', P') -> P' = P /\ (forall k, c = Fixed k -> c' = Fixed k)).
        { intros q m HM. destruct (sounds_all m P q) as [[[ps1 c1] P1]|] eqn:E1; [|discriminate]. cbn [bindr]. intros [= <- <- <-]. split; [|auto].
          destruct HM as [->|(y & ->)]; [now destruct (G _ IH _ _ _ _ _ O E1)|]. apply Forall_cons_iff in IH as [_ IH]. destruct O as [_ O]. now destruct (G _ IH _ _ _ _ _ O E1). }
        destruct l as [|[n m|s|k m] r]; apply X; eauto.
      + destruct (sounds_all l P (Fixed 0)) as [[[ps1 c1] P1]|] eqn:E1; [|discriminate]. cbn [bindr]. intros [= <- <- <-]. destruct (G _ IH _ _ _ _ _ O E1). auto.
      + destruct (sounds_all l P c) as [[[ps1 c1] P1]|] eqn:E1; [|discriminate]. cbn [bindr]. intros [= <- <- <-]. destruct (G _ IH _ _ _ _ _ O E1). split; [assumption|]. intros k ->. now destruct ps1.
      + destruct (sounds_all l P (Fixed 0)) as [[[ps1 c1] P1]|] eqn:E1; [|discriminate]. cbn [bindr]. intros [= <- <- <-]. destruct (G _ IH _ _ _ _ _ O E1). split; [assumption|]. now intros k ->.
      + apply (G _ IH). exact O.
  Qed.
  Lemma sounds_all_same l : forall P c ps c' P', one_languages P l -> sounds_all l P c = Ok (ps, c', P') -> P' = P /\ (forall k, c = Fixed k -> c' = Fixed k).
  Proof.
    induction l as [|x r IHr]; intros P c ps c' P'; cbn [Abs2rel_Spec.sounds_all one_languages]; [intros _ [= <- <- <-]; auto|]. intros [O1 O2].
    destruct (sounds x P c) as [[[ps1 c1] P1]|] eqn:E1; [|discriminate]. cbn [bindr]. destruct (sounds_same _ _ _ _ _ _ O1 E1) as (-> & F1).
    destruct (sounds_all r P c1) as [[[ps2 c2] P2]|] eqn:E2; [|discriminate]. cbn [bindr]. destruct (IHr _ _ _ _ _ O2 E2) as (-> & F2). intros [= <- <- <-]. split; [reflexivity|]. auto.
  Qed.

  Context (ws : bool) (P : processor).
  Hypothesis OK : tables_ok T.
  Hypothesis CS : can_start T P ws.

  Definition turned (t' : tree) (last last' : option pitch) (new new' : option pnode) (ps : list pitch) : Prop :=
    match last with
    | Some prev => new' = new /\ exists q, last' = Some q /\ sounds t' P (After prev) = Ok (ps, After q, P)
    | None => (last' = None /\ new' = new /\ forall c, sounds t' P c = Ok (ps, c, P)) \/
        (exists start q, last' = Some q /\ rel_start T P fa new' = Ok start /\ sounds t' P (After start) = Ok (ps, After q, P))
    end.
  Definition turneds (t' : list tree) (last last' : option pitch) (new new' : option pnode) (ps : list pitch) : Prop :=
    match last with
    | Some prev => new' = new /\ exists q, last' = Some q /\ sounds_all t' P (After prev) = Ok (ps, After q, P)
    | None => (last' = None /\ new' = new /\ forall c, sounds_all t' P c = Ok (ps, c, P)) \/
        (exists start q, last' = Some q /\ rel_start T P fa new' = Ok start /\ sounds_all t' P (After start) = Ok (ps, After q, P))
    end.

  Lemma turned_still t last new ps : (forall c, sounds t P c = Ok (ps, c, P)) -> turned t last last new new ps.
  Proof. intros H. unfold turned. destruct last as [prev|]; [|left; auto]. split; [reflexivity|]. exists prev. auto. Qed.

  Lemma turned_tree t : simple t = true -> one_language T P t -> forall last new ps c', sounds t P (Fixed 0) = Ok (ps, c', P) ->
    exists t' last' new', relative_tree T fa ws t P last new = Ok (t', last', new', P) /\ turned t' last last' new new' ps.
  Proof.
    induction t as [n l _|s|k l IH] using tree_ind2; intros SI O last new ps c' S.
    - rewrite sounds_eq in S. cbn [note_pitch] in S. destruct (read_node T P n) as [p|] eqn:R; [|discriminate]. cbn [bindr] in S.
      destruct (sounds_all l P (Fixed 0)) as [[[ps1 c1] P1]|] eqn:E1; [|discriminate]. cbn [bindr] in S.
      rewrite Z.add_0_r in S. replace (Pitch (octave p) (note p) (alter p)) with p in S by now destruct p. injection S as <- <- ->.
      destruct (relative_note_spec T P fa ws OK n last new p CS R) as (m & new' & start & c & A & B & C & D & E).
      exists (TNote m l), (Some p), new'. cbn [relative_tree]. rewrite A. cbn [bindr]. split; [reflexivity|].
      assert (SM : sounds (TNote m l) P (After start) = Ok (p :: ps1, After p, P)) by (rewrite sounds_eq; cbn [note_pitch]; rewrite D; cbn [bindr]; now rewrite E1).
      unfold turned. destruct last as [prev|].
      + cbn [reference] in C. injection C as ->. split; [exact E|]. now exists p.
      + right. cbn [reference] in C. now exists start, p.
    - rewrite one_eq in O. rewrite sounds_eq, O in S. cbn [bindr] in S. injection S as <- <-.
      exists (TLang s), last, new. cbn [relative_tree]. rewrite O. cbn [bindr]. split; [reflexivity|]. apply turned_still. intros c. rewrite sounds_eq, O. reflexivity.
    - assert (X : forall l, Forall (fun t => simple t = true -> one_language T P t -> forall last new ps c', sounds t P (Fixed 0) = Ok (ps, c', P) ->
          exists t' last' new', relative_tree T fa ws t P last new = Ok (t', last', new', P) /\ turned t' last last' new new' ps) l ->
        forallb simple l = true -> one_languages P l -> forall last new ps c', sounds_all l P (Fixed 0) = Ok (ps, c', P) ->
        exists l' last' new', relative_trees T fa ws l P last new = Ok (l', last', new', P) /\ turneds l' last last' new new' ps).
      { clear. induction 1 as [|x r IHx _ IHr]; intros SI O last new ps c' S.
        - cbn in S. injection S as <- <-. exists [], last, new. split; [reflexivity|]. unfold turneds. destruct last as [prev|]; [|left; auto]. split; [reflexivity|]. exists prev. auto.
        - cbn [forallb] in SI. apply andb_prop in SI as [SX SR]. destruct O as [OX OR]. cbn [Abs2rel_Spec.sounds_all] in S.
          destruct (sounds x P (Fixed 0)) as [[[ps1 c1] P1]|] eqn:E1; [|discriminate]. cbn [bindr] in S.
          destruct (sounds_same _ _ _ _ _ _ OX E1) as (-> & F1). rewrite (F1 0 eq_refl) in *.
          destruct (sounds_all r P (Fixed 0)) as [[[ps2 c2] P2]|] eqn:E2; [|discriminate]. cbn [bindr] in S. injection S as <- <- ->.
          destruct (IHx SX OX last new _ _ eq_refl) as (x' & la1 & nw1 & A1 & B1).
          destruct (IHr SR OR la1 nw1 _ _ eq_refl) as (r' & la2 & nw2 & A2 & B2).
          exists (x' :: r'), la2, nw2. cbn [relative_trees]. rewrite A1. cbn [bindr]. rewrite A2. cbn [bindr]. split; [reflexivity|].
          unfold turned, turneds in *. destruct last as [prev|].
          + destruct B1 as (-> & q1 & -> & S1). destruct B2 as (-> & q2 & -> & S2). split; [reflexivity|]. exists q2. split; [reflexivity|].
            cbn [Abs2rel_Spec.sounds_all]. rewrite S1. cbn [bindr]. rewrite S2. reflexivity.
          + destruct B1 as [(-> & -> & S1)|(start & q1 & -> & RS & S1)].
            * destruct B2 as [(-> & -> & S2)|(start & q2 & -> & RS & S2)].
              -- left. split; [reflexivity|]. split; [reflexivity|]. intros c. cbn [Abs2rel_Spec.sounds_all]. rewrite S1. cbn [bindr]. rewrite S2. reflexivity.
              -- right. exists start, q2. split; [reflexivity|]. split; [exact RS|]. cbn [Abs2rel_Spec.sounds_all]. rewrite S1. cbn [bindr]. rewrite S2. reflexivity.
            * destruct B2 as (-> & q2 & -> & S2). right. exists start, q2. split; [reflexivity|]. split; [exact RS|].
              cbn [Abs2rel_Spec.sounds_all]. rewrite S1. cbn [bindr]. rewrite S2. reflexivity. }
      rewrite one_eq in O. cbn [kids] in O. destruct k; try discriminate SI.
      + cbn [simple] in SI. rewrite sounds_eq in S. destruct (X l IH SI O last new ps c' S) as (l' & la & nw & A & B). exists (TNode KList l'), la, nw.
        rewrite relative_tree_node, A. split; [reflexivity|]. revert B. unfold turned, turneds. destruct last as [prev|]; [now setoid_rewrite sounds_eq|].
        intros [(B1 & B2 & B3)|B]; [left|right; now setoid_rewrite sounds_eq]. split; [exact B1|]. split; [exact B2|]. intros c. rewrite sounds_eq. apply B3.
      + exists (TNode KFixed l), last, new. split; [reflexivity|]. apply turned_still. intros c. rewrite sounds_eq in S |- *.
        destruct l as [|[n m|s|k m] r]; match type of S with bindr ?e _ = _ => destruct e as [[[ps1 c1] P1]|] end; try discriminate; cbn [bindr] in S |- *; now injection S as <- <- ->.
      + exists (TNode KOpaque l), last, new. split; [reflexivity|]. apply turned_still. intros c. rewrite sounds_eq in S |- *.
        match type of S with bindr ?e _ = _ => destruct e as [[[ps1 c1] P1]|] end; try discriminate; cbn [bindr] in S |- *; now injection S as <- <- ->.
      + cbn [simple] in SI. rewrite sounds_eq in S. destruct (X l IH SI O last new ps c' S) as (l' & la & nw & A & B). exists (TNode KOther l'), la, nw.
        rewrite relative_tree_node, A. split; [reflexivity|]. revert B. unfold turned, turneds. destruct last as [prev|]; [now setoid_rewrite sounds_eq|].
        intros [(B1 & B2 & B3)|B]; [left|right; now setoid_rewrite sounds_eq]. split; [exact B1|]. split; [exact B2|]. intros c. rewrite sounds_eq. apply B3.
  Qed.

  Lemma made_sounds t ps c' : simple t = true -> one_language T P t -> sounds t P (Fixed 0) = Ok (ps, c', P) ->
    (forall n l, t <> TNote n l) ->
    exists u, make_relative_tree T fa ws t P = Ok (u, P) /\ forall c, sounds u P c = Ok (ps, c, P).
  Proof.
    intros SI O S NN. destruct (turned_tree t SI O None None ps c' S) as (t' & la & nw & A & B).
    unfold make_relative_tree. rewrite A. cbn [bindr]. eexists. split; [reflexivity|]. intros c. rewrite sounds_eq.
    assert (N' : forall n l, t' <> TNote n l).
    { intros n l ->. assert (BT := relative_tree_bare T fa ws _ _ _ _ _ _ _ _ A). destruct t as [m k| |k l0]; [now elim (NN m k)|discriminate|]. destruct k; discriminate. }
    destruct B as [(-> & -> & B)|(start & q & -> & RS & B)].
    - cbn [app]. assert (X : (let! p := rel_start T P fa None in let! (ps0, _, P0) := sounds_all [t'] P (After p) in Ok (ps0, c, P0)) = Ok (ps, c, P)).
      { cbn [rel_start bindr Abs2rel_Spec.sounds_all]. rewrite B. cbn [bindr]. now rewrite app_nil_r. }
      destruct t'; [now elim (N' n l)|exact X|exact X].
    - destruct nw as [n|]; cbn [app].
      + cbn [rel_start] in RS. rewrite RS. cbn [bindr Abs2rel_Spec.sounds_all]. rewrite B. cbn [bindr]. now rewrite app_nil_r.
      + assert (X : (let! p := rel_start T P fa None in let! (ps0, _, P0) := sounds_all [t'] P (After p) in Ok (ps0, c, P0)) = Ok (ps, c, P)).
        { rewrite RS. cbn [bindr Abs2rel_Spec.sounds_all]. rewrite B. cbn [bindr]. now rewrite app_nil_r. }
        destruct t'; [now elim (N' n l)|exact X|exact X].
  Qed.

  Variables inr whole : list nat -> bool.
  Notation edit_tree := (edit_tree T fa ws inr whole).
  Notation edit_trees := (edit_trees T fa ws inr whole).
  Notation picked := (picked inr whole).

  (** Where nothing is chosen, nothing changes. *)
  Lemma edit_nothing t : forall p, (forall q, picked p t q = false) -> edit_tree p t P = Ok (t, P).
  Proof.
    assert (G : forall l, Forall (fun t => forall p, (forall q, picked p t q = false) -> edit_tree p t P = Ok (t, P)) l ->
      forall p i, (forall j t, nth_error l j = Some t -> forall q, picked (p ++ [(i + j)%nat]) t q = false) -> edit_trees p i l P = Ok (l, P)).
    { induction 1 as [|x r IHx _ IHr]; intros p i H; cbn [Abs2rel_Model.edit_trees]; [reflexivity|]. rewrite IHx; [|intros q; specialize (H 0%nat x eq_refl q); now rewrite Nat.add_0_r in H]. cbn [bindr].
      rewrite IHr; [reflexivity|]. intros j t0 N q. replace (S i + j)%nat with (i + S j)%nat by lia. now apply H. }
    assert (H : forall t, Forall (fun t => forall p, (forall q, picked p t q = false) -> edit_tree p t P = Ok (t, P)) (kids t) -> forall p, (forall q, picked p t q = false) -> edit_tree p t P = Ok (t, P)).
    { clear t. intros t IH p H. rewrite edit_tree_eq. destruct (inr p) eqn:I; [|reflexivity]. assert (W := H []). cbn in W. rewrite I in W. cbn [andb] in W. rewrite W.
      destruct (is_rel t) eqn:R; [reflexivity|]. rewrite (G _ IH); [cbn [bindr]; now destruct t|]. intros j u N q. specialize (H (j :: q)). cbn in H. rewrite I, W, R, N in H. exact H. }
    induction t as [n l IH|s|k l IH] using tree_ind2; apply H; [exact IH|constructor|exact IH].
  Qed.

  Definition fine (p : list nat) (t : tree) : Prop :=
    forall q u, picked p t q = true -> sub t q = Some u -> simple u = true /\ forall q1 q2 m, q = q1 ++ q2 -> q2 <> [] -> sub t q1 <> Some (TNode KFixed m).

  Lemma heard_tree t : forall p ps c', one_language T P t -> fine p t -> sounds t P (Fixed 0) = Ok (ps, c', P) ->
    exists t', edit_tree p t P = Ok (t', P) /\ sounds t' P (Fixed 0) = Ok (ps, Fixed 0, P).
  Proof.
    assert (G : forall l, Forall (fun t => forall p ps c', one_language T P t -> fine p t -> sounds t P (Fixed 0) = Ok (ps, c', P) ->
        exists t', edit_tree p t P = Ok (t', P) /\ sounds t' P (Fixed 0) = Ok (ps, Fixed 0, P)) l ->
      forall p i ps c', one_languages P l -> (forall j t, nth_error l j = Some t -> fine (p ++ [(i + j)%nat]) t) -> sounds_all l P (Fixed 0) = Ok (ps, c', P) ->
      exists l', edit_trees p i l P = Ok (l', P) /\ sounds_all l' P (Fixed 0) = Ok (ps, Fixed 0, P)).
    { induction 1 as [|x r IHx _ IHr]; intros p i ps c' O F; cbn [Abs2rel_Spec.sounds_all Abs2rel_Model.edit_trees].
      - intros [= <- <-]. exists []. split; reflexivity.
      - destruct O as [OX OR]. destruct (sounds x P (Fixed 0)) as [[[ps1 c1] P1]|] eqn:E1; [|discriminate]. cbn [bindr].
        destruct (sounds_same _ _ _ _ _ _ OX E1) as (-> & F1). rewrite (F1 0 eq_refl) in *.
        destruct (sounds_all r P (Fixed 0)) as [[[ps2 c2] P2]|] eqn:E2; [|discriminate]. cbn [bindr]. intros [= <- <- ->].
        destruct (IHx (p ++ [i]) ps1 (Fixed 0) OX) as (x' & A1 & B1); [specialize (F 0%nat x eq_refl); now rewrite Nat.add_0_r in F|reflexivity|].
        destruct (IHr p (S i) ps2 c2 OR) as (r' & A2 & B2); [|reflexivity|].
        { intros j t0 N. replace (S i + j)%nat with (i + S j)%nat by lia. now apply F. }
        exists (x' :: r'). rewrite A1. cbn [bindr]. rewrite A2. cbn [bindr Abs2rel_Spec.sounds_all]. split; [reflexivity|]. rewrite B1. cbn [bindr]. now rewrite B2. }
    assert (FK : forall p t j u, inr p = true -> wants whole p t = false -> is_rel t = false -> fine p t -> nth_error (kids t) j = Some u -> fine (p ++ [j]) u).
    { intros p t0 j u I W R F N q v Q S. destruct (F (j :: q) v) as (F1 & F2); [cbn; now rewrite I, W, R, N|cbn [sub]; now rewrite N|].
      split; [exact F1|]. intros q1 q2 m E NE. specialize (F2 (j :: q1) q2 m ltac:(now rewrite E) NE). cbn [sub] in F2. now rewrite N in F2. }
    assert (FX : forall p l, inr p = true -> fine p (TNode KFixed l) -> forall q, picked p (TNode KFixed l) q = false).
    { intros p l I F q. destruct (picked p (TNode KFixed l) q) eqn:Q; [|reflexivity]. pose proof Q as Q0. apply picked_spec in Q0 as ((u & S & W) & _).
      destruct (F q u Q S) as (_ & F2). destruct q as [|j q]; [cbn in S; injection S as <-; discriminate W|]. now elim (F2 [] (j :: q) l eq_refl ltac:(discriminate)). }
    induction t as [n l IH|s|k l IH] using tree_ind2; intros p ps c' O F S;
      (destruct (inr p) eqn:I; [|eexists; rewrite edit_tree_eq, I; split; [reflexivity|]; destruct (sounds_same _ _ _ _ _ _ O S) as (_ & FS); now rewrite (FS 0 eq_refl) in S]);
      rewrite edit_tree_eq, I; cbn [kids with_kids].
    - cbn [wants is_rel]. rewrite one_eq in O. cbn [kids] in O. rewrite sounds_eq in S. destruct (note_pitch T P (Fixed 0) n) as [p0|] eqn:N; [|discriminate]. cbn [bindr] in S.
      destruct (sounds_all l P (Fixed 0)) as [[[ps1 c1] P1]|] eqn:E1; [|discriminate]. cbn [bindr] in S. destruct (sounds_all_same _ _ _ _ _ _ O E1) as (-> & _).
      destruct (G l IH p 0%nat ps1 c1 O) as (l' & A & B); [intros j t0 Nj; cbn [Nat.add]; exact (FK p (TNote n l) j t0 I eq_refl eq_refl F Nj)|exact E1|].
      rewrite A. cbn [bindr]. eexists. split; [reflexivity|]. rewrite sounds_eq, N. cbn [bindr]. rewrite B. cbn [bindr]. now injection S as <- <-.
    - cbn [wants is_rel Abs2rel_Model.edit_trees bindr]. eexists. split; [reflexivity|]. destruct (sounds_same _ _ _ _ _ _ O S) as (_ & FS). now rewrite (FS 0 eq_refl) in S.
    - destruct (wants whole p (TNode k l)) eqn:W.
      + destruct (F [] (TNode k l)) as (SI & _); [cbn; rewrite I; exact W|reflexivity|]. destruct (made_sounds (TNode k l) ps c' SI O S ltac:(discriminate)) as (u & A & B). exists u. split; [exact A|]. apply B.
      + destruct (is_rel (TNode k l)) eqn:R; [eexists; split; [reflexivity|]; destruct (sounds_same _ _ _ _ _ _ O S) as (_ & FS); now rewrite (FS 0 eq_refl) in S|].
        pose proof O as O1. rewrite one_eq in O1. cbn [kids] in O1.
        assert (X : forall ps c', sounds_all l P (Fixed 0) = Ok (ps, c', P) -> exists l', edit_trees p 0 l P = Ok (l', P) /\ sounds_all l' P (Fixed 0) = Ok (ps, Fixed 0, P)).
        { intros ps1 c1. apply (G l IH p 0%nat ps1 c1 O1). intros j t0 Nj. cbn [Nat.add]. exact (FK p (TNode k l) j t0 I W R F Nj). }
        destruct k; try discriminate R; try discriminate W.
        * rewrite sounds_eq in S. destruct (X _ _ S) as (l' & A & B). rewrite A. cbn [bindr]. eexists. split; [reflexivity|]. rewrite sounds_eq. exact B.
        * assert (EN := edit_nothing (TNode KFixed l) p (FX p l I F)). rewrite edit_tree_eq, I in EN. cbn [wants is_rel kids with_kids] in EN. rewrite EN. eexists. split; [reflexivity|].
          destruct (sounds_same _ _ _ _ _ _ O S) as (_ & FS). now rewrite (FS 0 eq_refl) in S.
        * rewrite sounds_eq in S. destruct (sounds_all l P (Fixed 0)) as [[[ps1 c1] P1]|] eqn:E1; [|discriminate]. cbn [bindr] in S. injection S as <- <- ->.
          destruct (X _ _ eq_refl) as (l' & A & B). rewrite A. cbn [bindr]. eexists. split; [reflexivity|]. rewrite sounds_eq, B. reflexivity.
        * rewrite sounds_eq in S. destruct (sounds_all l P (Fixed 0)) as [[[ps1 c1] P1]|] eqn:E1; [|discriminate]. cbn [bindr] in S. injection S as <- <- ->.
          destruct (X _ _ eq_refl) as (l' & A & B). rewrite A. cbn [bindr]. eexists. split; [reflexivity|]. rewrite sounds_eq, B. cbn [bindr]. now destruct ps1.
        * rewrite sounds_eq in S. destruct (sounds_all l P (Fixed 0)) as [[[ps1 c1] P1]|] eqn:E1; [|discriminate]. cbn [bindr] in S. injection S as <- <- ->.
          destruct (X _ _ eq_refl) as (l' & A & B). rewrite A. cbn [bindr]. eexists. split; [reflexivity|]. rewrite sounds_eq, B. reflexivity.
        * rewrite sounds_eq in S. destruct (X _ _ S) as (l' & A & B). rewrite A. cbn [bindr]. eexists. split; [reflexivity|]. rewrite sounds_eq. exact B.
  Qed.

  Lemma heard_trees l : forall p i ps c', one_languages P l -> (forall j t, nth_error l j = Some t -> fine (p ++ [(i + j)%nat]) t) -> sounds_all l P (Fixed 0) = Ok (ps, c', P) ->
    exists l', edit_trees p i l P = Ok (l', P) /\ sounds_all l' P (Fixed 0) = Ok (ps, Fixed 0, P).
  Proof.
    induction l as [|x r IHr]; intros p i ps c' O F; cbn [Abs2rel_Spec.sounds_all Abs2rel_Model.edit_trees].
    - intros [= <- <-]. exists []. split; reflexivity.
    - destruct O as [OX OR]. destruct (sounds x P (Fixed 0)) as [[[ps1 c1] P1]|] eqn:E1; [|discriminate]. cbn [bindr].
      destruct (sounds_same _ _ _ _ _ _ OX E1) as (-> & F1). rewrite (F1 0 eq_refl) in *.
      destruct (sounds_all r P (Fixed 0)) as [[[ps2 c2] P2]|] eqn:E2; [|discriminate]. cbn [bindr]. intros [= <- <- ->].
      destruct (heard_tree x (p ++ [i]) ps1 (Fixed 0) OX) as (x' & A1 & B1); [specialize (F 0%nat x eq_refl); now rewrite Nat.add_0_r in F|exact E1|].
      destruct (IHr p (S i) ps2 c2 OR) as (r' & A2 & B2); [|reflexivity|].
      { intros j t N. replace (S i + j)%nat with (i + S j)%nat by lia. now apply F. }
      exists (x' :: r'). rewrite A1. cbn [bindr]. rewrite A2. cbn [bindr Abs2rel_Spec.sounds_all]. split; [reflexivity|]. rewrite B1. cbn [bindr]. now rewrite B2.
  Qed.
End Sound.
