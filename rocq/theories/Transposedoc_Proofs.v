(** Lemmas for transposing whole documents. *)
From Coq Require Import String Ascii List ZArith QArith Lqa Bool Lia.
From Verif Require Import Base Pitch_Model Pitch_Spec Pitch_Proofs Transpose_Model Transpose_Spec Transpose_Proofs.
From Verif Require Import Transpose_Props Transpose_Chain Transposedoc_Model Transposedoc_Spec.
Import ListNotations.
Open Scope Z_scope.

Section Ind.
  Variable Q : mtree -> Prop.
  Hypothesis Hpitch : forall n ch, Forall Q ch -> Q (MPitch n ch).
  Hypothesis Hkey : forall ch, Forall Q ch -> Q (MKey ch).
  Hypothesis Habs : forall ch, Forall Q ch -> Q (MAbsolute ch).
  Hypothesis Hrel : forall ch, Forall Q ch -> Q (MRelative ch).
  Hypothesis Hfix : forall ch, Forall Q ch -> Q (MFixed ch).
  Hypothesis Htr : forall ch, Forall Q ch -> Q (MTranspose ch).
  Hypothesis Hskip : forall ch, Q (MSkip ch).
  Hypothesis Hchord : forall ch, Forall Q ch -> Q (MChord ch).
  Hypothesis Hcheck : forall ch, Forall Q ch -> Q (MCheck ch).
  Hypothesis Hlang : forall l, Q (MLang l).
  Hypothesis Hcom : Q MComment.
  Hypothesis Hother : forall ch, Forall Q ch -> Q (MOther ch).
  Fixpoint mtree_rect' (x : mtree) : Q x :=
    let all := fix all (l : list mtree) : Forall Q l :=
      match l with [] => Forall_nil Q | y :: r => @Forall_cons _ Q y r (mtree_rect' y) (all r) end in
    match x with
    | MPitch n ch => Hpitch n ch (all ch)
    | MKey ch => Hkey ch (all ch)
    | MAbsolute ch => Habs ch (all ch)
    | MRelative ch => Hrel ch (all ch)
    | MFixed ch => Hfix ch (all ch)
    | MTranspose ch => Htr ch (all ch)
    | MSkip ch => Hskip ch
    | MChord ch => Hchord ch (all ch)
    | MCheck ch => Hcheck ch (all ch)
    | MLang l => Hlang l
    | MComment => Hcom
    | MOther ch => Hother ch (all ch)
    end.
End Ind.

(** How the loop's variables, the place in the original document and the place
    in the edited one belong together. *)
Definition place_inv (b : body) (pl pl' : place) : Prop :=
  match b with
  | BPlain k => (pl = PAbs /\ pl' = PAbs /\ k = 0) \/ exists r r', pl = PFix r /\ pl' = PFix r'
  | BKeep => pl = PKey /\ pl' = PKey
  | BRel st => exists k p p', pl = PRel p /\ pl' = PRel p' /\ inv k st p p'
  | BChord st f => exists k p p' f1 f2, pl = PChord p f1 /\ pl' = PChord p' f2 /\ inv k st p p' /\
      match f, f1, f2 with
      | None, None, None => True
      | Some s, Some q, Some q' => inv k s q q'
      | _, _, _ => False
      end
  | BCheck st => exists k p p', pl = PCheck p /\ pl' = PCheck p' /\ inv k st p p'
  end.
Definition agree (b : body) (pl pl' : place) : Prop :=
  match b, pl, pl' with BPlain k, PFix r, PFix r' => octave r' = octave r + k | _, _, _ => True end.
Definition kind (b : body) : nat :=
  match b with BPlain _ => 0 | BKeep => 1 | BRel _ => 2 | BChord _ _ => 3 | BCheck _ => 4 end%nat.
Definition is_rel (b : body) : bool := match b with BRel _ => true | _ => false end.
Definition inrel_of (b : body) : bool := match b with BPlain _ | BKeep => false | _ => true end.

Lemma kind_rel b b' : kind b' = kind b -> is_rel b' = is_rel b.
Proof. destruct b, b'; cbn; congruence. Qed.
Lemma kind_inrel b b' : kind b' = kind b -> inrel_of b' = inrel_of b.
Proof. destruct b, b'; cbn; congruence. Qed.

Section Doc.
  Variables (T : tables) (t : transposer) (s : list Q) (fa : bool) (o : Z).
  Hypothesis OK : tables_ok T.
  Hypothesis U : forall P, uniform T P o.
  Hypothesis SC : tr_scale t = Some s.

  Definition no_reference (h : heard) : Prop := match h with Reference _ => False | _ => True end.

  Lemma transposed_lower p q r k : transpose t p = Ok q -> peq r (lower_octave k q) ->
    transposed t p (Pitch (octave r + k) (note r) (alter r)).
  Proof.
    intros H (A & B & C). exists q. split; [exact H|]. unfold lower_octave, with_octave in *. cbn [octave note alter] in *.
    repeat split; cbn [octave note alter]; [lia|exact B|exact C].
  Qed.

  Lemma peq_lower0 p q : peq p (lower_octave 0 q) -> peq p q.
  Proof. unfold lower_octave, with_octave. intros (A & B & C). cbn [octave note alter] in *. repeat split; [lia|assumption..]. Qed.

  Lemma fixed_lower p q r k ref ref' : transpose t p = Ok q -> peq r (lower_octave k q) -> octave ref' = octave ref + k ->
    transposed t (fixed_pitch ref p) (fixed_pitch ref' r).
  Proof.
    intros H (A & B & C) E. unfold fixed_pitch. exists (shift (octave ref + 1) q). split.
    - change (Pitch (octave p + (octave ref + 1)) (note p) (alter p)) with (shift (octave ref + 1) p).
      rewrite transpose_shift, H. reflexivity.
    - unfold lower_octave, with_octave in *. cbn [octave note alter] in *. unfold shift.
      repeat split; cbn [octave note alter]; [lia|exact B|exact C].
  Qed.

  Lemma on_note_spec P b d d' pl pl' n n' b' : r_writable n = true -> place_inv b pl pl' -> (d' == d)%Q ->
    on_note T t P b n = Ok (n', b') ->
    exists h pl1 h' pl1', read_pitch T d P pl (r_node n) = Ok (h, pl1) /\ read_pitch T d' P pl' (r_node n') = Ok (h', pl1') /\
      place_inv b' pl1 pl1' /\ kind b' = kind b /\ (agree b pl pl' -> agree b' pl1 pl1' /\ heard_transposed t h h').
  Proof.
    intros W I D. destruct b as [k| |st|st f|st]; cbn [on_note place_inv] in *.
    - destruct (transpose_pitch T P t (lower_octave k) n) as [m|] eqn:E; [|discriminate]. cbn [bindr]. intros [= <- <-].
      destruct (transpose_pitch_spec _ _ _ _ _ _ OK E) as (_ & _ & X). destruct (X W) as (p & q & r & R1 & TQ & R2 & PE).
      destruct I as [(-> & -> & ->)|(r0 & r1 & -> & ->)]; cbn [read_pitch]; rewrite R1, R2; cbn [bindr];
        do 4 eexists; (split; [reflexivity|]); (split; [reflexivity|]).
      + split; [left; now repeat split|]. split; [reflexivity|]. intros _. split; [exact Logic.I|].
        split; [|exact D]. exists q. split; [exact TQ|now apply peq_lower0].
      + split; [right; now exists r0, r1|]. split; [reflexivity|]. cbn [agree]. intros A. split; [exact A|].
        split; [|exact D]. eapply fixed_lower; eassumption.
    - destruct I as [-> ->]. destruct (of_pair _) as [m|] eqn:E; [|discriminate]. cbn [bindr]. intros [= <- <-].
      apply process_ok in E; [|exact OK]. destruct E as (p & q & R1 & F & X). rewrite W in X. destruct X as (r & R2 & PE).
      destruct (transpose t p) as [q0|] eqn:TQ; [|discriminate]. cbn [bindr] in F. injection F as <-.
      cbn [read_pitch r_node]. rewrite R1, R2. cbn [bindr]. do 4 eexists. split; [reflexivity|]. split; [reflexivity|].
      split; [now split|]. split; [reflexivity|]. intros _. split; [exact Logic.I|]. split; [|exact D].
      exists q0. split; [exact TQ|]. exact PE.
    - destruct I as (k & p0 & p0' & -> & -> & I). destruct (transpose_note T P t n st) as [[m s1]|] eqn:E; [|discriminate].
      cbn [bindr]. intros [= <- <-].
      destruct (transpose_note_spec _ _ _ _ _ _ _ _ _ _ _ OK (U P) W I E) as (p & c & p' & c' & R1 & R2 & TP & I' & _).
      cbn [read_pitch]. rewrite R1, R2. cbn [bindr]. do 4 eexists. split; [reflexivity|]. split; [reflexivity|].
      split; [now exists k, p, p'|]. split; [reflexivity|]. intros _. split; [exact Logic.I|]. now split.
    - destruct I as (k & p0 & p0' & f1 & f2 & -> & -> & I & IF). destruct (transpose_note T P t n st) as [[m s1]|] eqn:E; [|discriminate].
      cbn [bindr]. intros [= <- <-].
      destruct (transpose_note_spec _ _ _ _ _ _ _ _ _ _ _ OK (U P) W I E) as (p & c & p' & c' & R1 & R2 & TP & I' & _).
      cbn [read_pitch]. rewrite R1, R2. cbn [bindr]. do 4 eexists. split; [reflexivity|]. split; [reflexivity|].
      split; [exists k, p, p'; do 2 eexists; split; [reflexivity|]; split; [reflexivity|]; split; [exact I'|]|].
      + destruct f as [x|], f1 as [y|], f2 as [z|]; cbn [odefault]; try contradiction; assumption.
      + split; [reflexivity|]. intros _. split; [exact Logic.I|]. now split.
    - destruct I as (k & p0 & p0' & -> & -> & I). destruct (read_node T P (r_node n)) as [p|] eqn:R; [|discriminate].
      cbn [bindr]. rewrite W. destruct (transpose t p) as [q|] eqn:TQ; [|discriminate]. cbn [bindr].
      destruct (write_node T P (r_node n) q) as [m [[]|]] eqn:WN; unfold of_pair; cbn [bindr]; [|discriminate]. intros [= <- <-].
      destruct (write_read _ _ _ _ _ OK WN) as ((r & R2 & PE) & _). cbn [read_pitch r_node]. rewrite R, R2. cbn [bindr].
      do 4 eexists. split; [reflexivity|]. split; [reflexivity|].
      split; [exists 0, p, r; split; [reflexivity|]; split; [reflexivity|]; destruct PE as (A & B & _); split; split; cbn [fst snd odefault]; try lia; congruence|].
      split; [reflexivity|]. intros _. split; [exact Logic.I|]. split; [|exact D]. now exists q.
  Qed.

  Lemma read_pitch_noref P d pl n h pl1 : read_pitch T d P pl n = Ok (h, pl1) -> no_reference h.
  Proof.
    destruct pl; cbn [read_pitch]; try (destruct (read_node T P n); [|discriminate]); try (destruct (rel_pitch T P _ n) as [[? ?]|]; [|discriminate]);
      cbn [bindr]; intros [= <- _]; exact Logic.I.
  Qed.

  (** The claim for one node, and for a list. *)
  Definition good (x : mtree) : Prop := forall b P d d' pl pl' x' b1 P1,
    full x = true -> usual (inrel_of b) x = true -> place_inv b pl pl' -> (d' == d)%Q ->
    walk T t fa (is_rel b) b P x = Ok (x', b1, P1) ->
    exists hs pl1 hs' pl1', read T s fa d pl P x = Ok (hs, pl1, P1) /\ read T s fa d' pl' P x' = Ok (hs', pl1', P1) /\
      place_inv b1 pl1 pl1' /\ kind b1 = kind b /\
      (agree b pl pl' -> references_kept t hs -> agree b1 pl1 pl1' /\ Forall2 (heard_transposed t) hs hs').
  Definition goods (l : list mtree) : Prop := forall b P d d' pl pl' l' b1 P1,
    forallb full l = true -> forallb (usual (inrel_of b)) l = true -> place_inv b pl pl' -> (d' == d)%Q ->
    walks (walk T t fa) (is_rel b) b P l = Ok (l', b1, P1) ->
    exists hs pl1 hs' pl1', read_all (read T s fa) d pl P l = Ok (hs, pl1, P1) /\ read_all (read T s fa) d' pl' P l' = Ok (hs', pl1', P1) /\
      place_inv b1 pl1 pl1' /\ kind b1 = kind b /\
      (agree b pl pl' -> references_kept t hs -> agree b1 pl1 pl1' /\ Forall2 (heard_transposed t) hs hs').

  Lemma references_app a b : references_kept t (a ++ b) -> references_kept t a /\ references_kept t b.
  Proof. unfold references_kept. intros H. split; intros r q I; apply H; apply in_or_app; auto. Qed.

  Lemma good_goods l : Forall good l -> goods l.
  Proof.
    induction 1 as [|x r G _ IH]; intros b P d d' pl pl' l' b1 P1 F W I D; cbn [walks].
    - intros [= <- <- <-]. exists [], pl, [], pl'. cbn [read_all]. split; [reflexivity|]. split; [reflexivity|].
      split; [exact I|]. split; [reflexivity|]. intros A _. split; [exact A|constructor].
    - cbn [forallb] in F, W. apply andb_prop in F. destruct F as [F1 F2]. apply andb_prop in W. destruct W as [W1 W2].
      destruct (walk T t fa (is_rel b) b P x) as [[[x' b2] P2]|] eqn:E; [|discriminate]. cbn [bindr].
      destruct (G _ _ _ _ _ _ _ _ _ F1 W1 I D E) as (hs & pl1 & hs' & pl1' & R1 & R2 & I1 & K & A1).
      rewrite <- (kind_rel _ _ K). fold (walks (walk T t fa)).
      destruct (walks (walk T t fa) (is_rel b2) b2 P2 r) as [[[r' b3] P3]|] eqn:E2; [|discriminate]. cbn [bindr]. intros [= <- <- <-].
      rewrite <- (kind_inrel _ _ K) in W2.
      destruct (IH _ _ _ _ _ _ _ _ _ F2 W2 I1 D E2) as (hs2 & pl2 & hs2' & pl2' & R3 & R4 & I2 & K2 & A2).
      exists (hs ++ hs2), pl2, (hs' ++ hs2'), pl2'. cbn [read_all]. fold (read_all (read T s fa)).
      rewrite R1, R2. cbn [bindr]. rewrite R3, R4. cbn [bindr].
      split; [reflexivity|]. split; [reflexivity|]. split; [exact I2|]. split; [congruence|].
      intros A R. destruct (references_app _ _ R) as [Ra Rb]. destruct (A1 A Ra) as [A3 F3]. destruct (A2 A3 Rb) as [A4 F4].
      split; [exact A4|]. now apply Forall2_app.
  Qed.

  Definition start_place := PRel (if fa then Pitch (-1) 3 0 else Pitch 0 0 0).
  Definition start_body := BRel (if fa then Pitch (-1) 3 0 else Pitch 0 0 0, None).
  Lemma start_inv : place_inv start_body start_place start_place.
  Proof.
    exists 0, (if fa then Pitch (-1) 3 0 else Pitch 0 0 0), (if fa then Pitch (-1) 3 0 else Pitch 0 0 0).
    split; [reflexivity|]. split; [reflexivity|]. split; split; cbn [fst snd odefault]; try reflexivity; lia.
  Qed.

  (** The bodies of \relative and \fixed. *)
  Definition rel_lead P := fix lead l := match l with
         | MComment :: r => let! (r', P') := lead r in Ok (MComment :: r', P')
         | MPitch n c :: r =>
             if existsb (fun y => negb (is_comment y)) r then
               let! p := read_node T P (r_node n) in
               if r_writable n then
                 let! q := transpose t p in
                 let! m := of_pair (write_node T P (r_node n) q) in
                 let k := tr_octave t in
                 let! (r', _, P') := walks (walk T t fa) true (BRel (lower_octave k p, Some (lower_octave k q))) P r in
                 Ok (MPitch (RNote m true) c :: r', P')
               else
                 let! (r', _, P') := walks (walk T t fa) true (BRel (p, None)) P r in Ok (MPitch n c :: r', P')
             else let! (l', _, P') := walks (walk T t fa) true start_body P l in Ok (l', P')
         | _ => let! (l', _, P') := walks (walk T t fa) true start_body P l in Ok (l', P')
         end.
  Definition rel_read_lead d P := fix lead l := match l with
         | MComment :: r => lead r
         | MPitch n _ :: r =>
             if forallb is_comment r then
               let! (hs, _, P') := read_all (read T s fa) d start_place P l in Ok (hs, P')
             else
               let! p := read_node T P (r_node n) in
               let! (hs, _, P') := read_all (read T s fa) d (PRel p) P r in Ok (Start p :: hs, P')
         | _ => let! (hs, _, P') := read_all (read T s fa) d start_place P l in Ok (hs, P')
         end.
  Definition fix_lead P := fix lead l := match l with
         | [] => Ok ([], P)
         | MComment :: r => let! (r', P') := lead r in Ok (MComment :: r', P')
         | MPitch n c :: r =>
             if r_writable n then
               let! m := transpose_pitch T P t (fun p => p) n in
               let! (r', _, P') := walks (walk T t fa) false (BPlain (tr_octave t)) P r in Ok (MPitch m c :: r', P')
             else let! (r', _, P') := walks (walk T t fa) false (BPlain 0) P r in Ok (MPitch n c :: r', P')
         | y :: r => let! (r', _, P') := walks (walk T t fa) false (BPlain 0) P r in Ok (y :: r', P')
         end.
  Definition fix_read_lead d P := fix lead l := match l with
         | MComment :: r => lead r
         | MPitch n _ :: r =>
             let! p := read_node T P (r_node n) in
             let! (hs, _, P') := read_all (read T s fa) d (PFix p) P r in Ok (Reference p :: hs, P')
         | _ => let! (hs, _, P') := read_all (read T s fa) d PAbs P l in Ok (hs, P')
         end.
  Lemma walk_relative rm b P ch : walk T t fa rm b P (MRelative ch) =
    let! (ch', P') := rel_lead P ch in Ok (MRelative ch', b, P').
  Proof. reflexivity. Qed.
  Lemma read_relative d pl P ch : read T s fa d pl P (MRelative ch) = let! (hs, P') := rel_read_lead d P ch in Ok (hs, pl, P').
  Proof. reflexivity. Qed.
  Lemma walk_fixed rm b P ch : walk T t fa rm b P (MFixed ch) =
    let! (ch', P') := fix_lead P ch in Ok (MFixed ch', b, P').
  Proof. reflexivity. Qed.
  Lemma read_fixed d pl P ch : read T s fa d pl P (MFixed ch) = let! (hs, P') := fix_read_lead d P ch in Ok (hs, pl, P').
  Proof. reflexivity. Qed.

  Lemma comments_kept rm b P x x' b1 P1 : walk T t fa rm b P x = Ok (x', b1, P1) -> is_comment x' = is_comment x.
  Proof.
    destruct x; cbn [walk];
      repeat match goal with
      | |- (let! _ := ?e in _) = _ -> _ => destruct e as [?|]; [|discriminate]; cbn [bindr]
      | |- (let (_, _) := ?e in _) = _ -> _ => destruct e
      | |- match ?e with _ => _ end = _ -> _ => destruct e
      end; try discriminate; try (intros [= <- _ _]; reflexivity).
  Qed.

  Lemma comments_all l : forall rm b P l' b1 P1, walks (walk T t fa) rm b P l = Ok (l', b1, P1) ->
    forallb is_comment l' = forallb is_comment l.
  Proof.
    induction l as [|x r IH]; intros rm b P l' b1 P1; cbn [walks].
    - now intros [= <- _ _].
    - destruct (walk T t fa rm b P x) as [[[x' b2] P2]|] eqn:E; [|discriminate]. cbn [bindr]. fold (walks (walk T t fa)).
      destruct (walks (walk T t fa) rm b2 P2 r) as [[[r' b3] P3]|] eqn:E2; [|discriminate]. cbn [bindr]. intros [= <- _ _].
      cbn [forallb]. now rewrite (comments_kept _ _ _ _ _ _ _ E), (IH _ _ _ _ _ _ E2).
  Qed.

  Lemma existsb_comment (r : list mtree) : existsb (fun y => negb (is_comment y)) r = negb (forallb is_comment r).
  Proof. induction r as [|x r IH]; [reflexivity|]. cbn [existsb forallb]. rewrite IH. now destruct (is_comment x). Qed.

  Lemma rel_lead_good ch : Forall good ch -> forall P d d' ch' P1,
    forallb full ch = true -> forallb (usual true) ch = true -> (d' == d)%Q ->
    rel_lead P ch = Ok (ch', P1) ->
    exists hs hs', rel_read_lead d P ch = Ok (hs, P1) /\ rel_read_lead d' P ch' = Ok (hs', P1) /\
      (references_kept t hs -> Forall2 (heard_transposed t) hs hs').
  Proof.
    induction 1 as [|x r G GR IH]; intros P d d' ch' P1 F W D.
    - intros [= <- <-]. exists [], []. repeat split. constructor.
    - pose proof (good_goods _ (Forall_cons _ G GR)) as GS. pose proof (good_goods _ GR) as GS'.
      assert (PL : forall l', (let! (l', _, P') := walks (walk T t fa) true start_body P (x :: r) in Ok (l', P')) = Ok (l', P1) ->
        exists hs hs', (let! (hs, _, P') := read_all (read T s fa) d start_place P (x :: r) in Ok (hs, P')) = Ok (hs, P1) /\
          (let! (hs, _, P') := read_all (read T s fa) d' start_place P l' in Ok (hs, P')) = Ok (hs', P1) /\
          (references_kept t hs -> Forall2 (heard_transposed t) hs hs')).
      { intros l' H. destruct (walks (walk T t fa) true start_body P (x :: r)) as [[[l2 b2] P2]|] eqn:E; [|discriminate].
        cbn [bindr] in H. injection H as <- <-.
        destruct (GS start_body P d d' _ _ _ _ _ F W start_inv D E) as (hs & pl1 & hs' & pl1' & R1 & R2 & _ & _ & A).
        rewrite R1, R2. exists hs, hs'. split; [reflexivity|]. split; [reflexivity|]. intros RK. now apply A. }
      assert (CX : forall l' b1 P2, walks (walk T t fa) true start_body P (x :: r) = Ok (l', b1, P2) ->
        exists x' r' b' P', l' = x' :: r' /\ walk T t fa true start_body P x = Ok (x', b', P') /\
          forallb is_comment r' = forallb is_comment r).
      { intros l' b1 P2. cbn [walks]. destruct (walk T t fa true start_body P x) as [[[x' b2] P3]|]; [|discriminate]. cbn [bindr].
        fold (walks (walk T t fa)). destruct (walks (walk T t fa) true b2 P3 r) as [[[r' b3] P4]|] eqn:E2; [|discriminate]. cbn [bindr].
        intros [= <- _ _]. exists x', r', b2, P3. split; [reflexivity|]. split; [reflexivity|]. exact (comments_all _ _ _ _ _ _ _ E2). }
      cbn [forallb] in F, W. apply andb_prop in F. destruct F as [F1 F2]. apply andb_prop in W. destruct W as [W1 W2].
      (* every other node but a comment or a pitch keeps its constructor *)
      assert (GEN : match x with MComment | MPitch _ _ => False | _ => True end ->
        rel_lead P (x :: r) = Ok (ch', P1) ->
        exists hs hs', rel_read_lead d P (x :: r) = Ok (hs, P1) /\ rel_read_lead d' P ch' = Ok (hs', P1) /\
          (references_kept t hs -> Forall2 (heard_transposed t) hs hs')).
      { intros NX H.
        assert (H' : (let! (l', _, P') := walks (walk T t fa) true start_body P (x :: r) in Ok (l', P')) = Ok (ch', P1)).
        { destruct x; try contradiction; exact H. }
        destruct (PL _ H') as (hs & hs' & R1 & R2 & A). exists hs, hs'. split; [|split].
        - destruct x; try contradiction; exact R1.
        - destruct (walks (walk T t fa) true start_body P (x :: r)) as [[[l2 b2] P2]|] eqn:E; [|discriminate].
          cbn [bindr] in H'. injection H' as <- <-. destruct (CX _ _ _ eq_refl) as (x' & r' & b' & P' & -> & EX & _).
          assert (NX' : match x' with MComment | MPitch _ _ => False | _ => True end).
          { clear - NX EX. destruct x; try contradiction; revert EX; cbn [walk start_body];
            repeat match goal with
            | |- (let! _ := ?e in _) = _ -> _ => destruct e as [?|]; [|discriminate]; cbn [bindr]
            | |- (let (_, _) := ?e in _) = _ -> _ => destruct e
            | |- match ?e with _ => _ end = _ -> _ => destruct e
            end; try discriminate; try (intros [= <- _ _]; exact Logic.I). }
          destruct x'; try contradiction; exact R2.
        - exact A. }
      destruct x as [n c| | | | | | | | | | |]; try (apply GEN; exact Logic.I).
      + clear GEN. cbn [rel_lead rel_read_lead]. rewrite existsb_comment. cbn [full] in F1. apply andb_prop in F1. destruct F1 as [WN FC].
        destruct (forallb is_comment r) eqn:CR; cbn [negb].
        * intros H. destruct (PL _ H) as (hs & hs' & R1 & R2 & A).
          destruct (walks (walk T t fa) true start_body P (MPitch n c :: r)) as [[[l2 b2] P2]|] eqn:E; [|discriminate].
          cbn [bindr] in H. injection H as <- <-. destruct (CX _ _ _ eq_refl) as (x' & r' & b' & P' & -> & EX & CR').
          exists hs, hs'. split; [exact R1|]. split; [|exact A].
          revert EX. cbn [walk]. destruct (on_note T t P start_body n) as [[n' b0]|]; [|discriminate]. cbn [bindr].
          destruct (walks (walk T t fa) false (BPlain 0) P c) as [[[c' b4] P4]|]; [|discriminate]. cbn [bindr]. intros [= <- _ _].
          cbn [rel_read_lead]. rewrite CR'. exact R2.
        * destruct (read_node T P (r_node n)) as [p|] eqn:R; [|discriminate]. cbn [bindr]. rewrite WN.
          destruct (transpose t p) as [q|] eqn:TQ; [|discriminate]. cbn [bindr].
          destruct (write_node T P (r_node n) q) as [m [[]|]] eqn:WR; unfold of_pair; cbn [bindr]; [|discriminate]. cbv zeta.
          destruct (write_read _ _ _ _ _ OK WR) as ((p' & R2 & PE) & _).
          set (b0 := BRel (lower_octave (tr_octave t) p, Some (lower_octave (tr_octave t) q))).
          destruct (walks (walk T t fa) true b0 P r) as [[[r' b1] P2]|] eqn:E; [|discriminate]. cbn [bindr]. intros [= <- <-].
          assert (I0 : place_inv b0 (PRel p) (PRel p')).
          { exists (tr_octave t), p, p'. split; [reflexivity|]. split; [reflexivity|]. destruct PE as (A & B & _).
            unfold lower_octave, with_octave. split; split; cbn [fst snd odefault octave note]; try lia; congruence. }
          destruct (GS' b0 P d d' _ _ _ _ _ F2 W2 I0 D E) as (hs & pl1 & hs' & pl1' & X1 & X2 & _ & _ & A).
          exists (Start p :: hs), (Start p' :: hs'). rewrite X1. cbn [bindr]. split; [reflexivity|]. split.
          -- cbn [rel_read_lead r_node]. rewrite (comments_all _ _ _ _ _ _ _ E), CR, R2. cbn [bindr]. now rewrite X2.
          -- intros RK. constructor; [exists q; now split|]. apply A; [exact Logic.I|].
             intros r0 q0 I. apply RK. now right.
      + cbn [rel_lead].
        fold (rel_lead P). destruct (rel_lead P r) as [[r' P2]|] eqn:E; [|discriminate]. cbn [bindr]. intros [= <- <-].
        destruct (IH P d d' _ _ F2 W2 D E) as (hs & hs' & X1 & X2 & A). exists hs, hs'. now repeat split.
  Qed.

  Lemma fix_lead_good ch : Forall good ch -> forall P d d' ch' P1,
    forallb full ch = true -> reference_first ch = true -> forallb (usual false) ch = true -> (d' == d)%Q ->
    fix_lead P ch = Ok (ch', P1) ->
    exists hs hs', fix_read_lead d P ch = Ok (hs, P1) /\ fix_read_lead d' P ch' = Ok (hs', P1) /\
      (references_kept t hs -> Forall2 (heard_transposed t) hs hs').
  Proof.
    induction 1 as [|x r G GR IH]; intros P d d' ch' P1 F RF W D; [discriminate|].
    cbn [forallb] in F, W. apply andb_prop in F. destruct F as [F1 F2]. apply andb_prop in W. destruct W as [W1 W2].
    destruct x as [n c| | | | | | | | | | |]; try discriminate.
    - cbn [fix_lead fix_read_lead]. cbn [full] in F1. apply andb_prop in F1. destruct F1 as [WN FC]. rewrite WN.
      destruct (transpose_pitch T P t (fun p => p) n) as [m|] eqn:E; [|discriminate]. cbn [bindr].
      destruct (transpose_pitch_spec _ _ _ _ _ _ OK E) as (_ & _ & X). destruct (X WN) as (p & q & p' & R1 & TQ & R2 & PE).
      destruct (walks (walk T t fa) false (BPlain (tr_octave t)) P r) as [[[r' b1] P2]|] eqn:EW; [|discriminate]. cbn [bindr].
      intros [= <- <-].
      assert (I0 : place_inv (BPlain (tr_octave t)) (PFix p) (PFix p')) by (right; now exists p, p').
      destruct (good_goods _ GR (BPlain (tr_octave t)) P d d' _ _ _ _ _ F2 W2 I0 D EW) as (hs & pl1 & hs' & pl1' & X1 & X2 & _ & _ & A).
      exists (Reference p :: hs), (Reference p' :: hs'). cbn [fix_read_lead]. rewrite R1, R2. cbn [bindr]. rewrite X1, X2. cbn [bindr].
      split; [reflexivity|]. split; [reflexivity|]. intros RK. constructor; [exists q; now split|].
      apply A.
      + cbn [agree]. rewrite (proj1 PE). apply RK; [now left|exact TQ].
      + intros r0 q0 I. apply RK. now right.
    - cbn [fix_lead reference_first] in *. fold (fix_lead P). destruct (fix_lead P r) as [[r' P2]|] eqn:E; [|discriminate]. cbn [bindr]. intros [= <- <-].
      destruct (IH P d d' _ _ F2 RF W2 D E) as (hs & hs' & X1 & X2 & A). exists hs, hs'. now repeat split.
  Qed.

  (** A subexpression with a place of its own. *)
  Lemma own_place b0 ch pl0 pl0' : Forall good ch -> place_inv b0 pl0 pl0' -> agree b0 pl0 pl0' ->
    forall P d d' ch' b1 P1, forallb full ch = true -> forallb (usual (inrel_of b0)) ch = true -> (d' == d)%Q ->
    walks (walk T t fa) (is_rel b0) b0 P ch = Ok (ch', b1, P1) ->
    exists hs pl1 hs' pl1', read_all (read T s fa) d pl0 P ch = Ok (hs, pl1, P1) /\
      read_all (read T s fa) d' pl0' P ch' = Ok (hs', pl1', P1) /\
      (references_kept t hs -> Forall2 (heard_transposed t) hs hs').
  Proof.
    intros G I A P d d' ch' b1 P1 F W D E.
    destruct (good_goods _ G b0 P d d' _ _ _ _ _ F W I D E) as (hs & pl1 & hs' & pl1' & X1 & X2 & _ & _ & X).
    exists hs, pl1, hs', pl1'. split; [exact X1|]. split; [exact X2|]. intros R. now apply X.
  Qed.

  Lemma plain_inv : place_inv (BPlain 0) PAbs PAbs.
  Proof. now left. Qed.

  Lemma not_rel b pl pl' : is_rel b = false -> place_inv b pl pl' -> (forall q, pl <> PRel q) /\ (forall q, pl' <> PRel q).
  Proof.
    intros R I. destruct b; try discriminate; cbn in I;
      [destruct I as [(-> & -> & _)|(r1 & r2 & -> & ->)]
      |destruct I as [-> ->]
      |destruct I as (k & p & p' & f1 & f2 & -> & -> & _)
      |destruct I as (k & p & p' & -> & -> & _)]; split; discriminate.
  Qed.

  Lemma plain_note P b n n' b' : inrel_of b = false -> on_note T t P b n = Ok (n', b') -> b' = b.
  Proof.
    destruct b; try discriminate; intros _; cbn [on_note].
    - destruct (transpose_pitch _ _ _ _ _) as [m|]; [|discriminate]. cbn [bindr]. now intros [= _ <-].
    - destruct (of_pair _) as [m|]; [|discriminate]. cbn [bindr]. now intros [= _ <-].
  Qed.

  Definition stable (x : mtree) : Prop := forall rm b P x' b1 P1, inrel_of b = false ->
    walk T t fa rm b P x = Ok (x', b1, P1) -> b1 = b.
  Lemma stable_all l : Forall stable l -> forall rm b P l' b1 P1, inrel_of b = false ->
    walks (walk T t fa) rm b P l = Ok (l', b1, P1) -> b1 = b.
  Proof.
    induction 1 as [|x r G _ IH]; intros rm b P l' b1 P1 IB; cbn [walks].
    - now intros [= _ <- _].
    - destruct (walk T t fa rm b P x) as [[[x' b2] P2]|] eqn:E; [|discriminate]. cbn [bindr].
      apply (G _ _ _ _ _ _ IB) in E. subst b2. fold (walks (walk T t fa)).
      destruct (walks (walk T t fa) rm b P2 r) as [[[r' b3] P3]|] eqn:E2; [|discriminate]. cbn [bindr]. intros [= _ <- _].
      exact (IH _ _ _ _ _ _ IB E2).
  Qed.

  Lemma plain_state x : stable x.
  Proof.
    induction x as [n ch G|ch G|ch G|ch G|ch G|ch G|ch|ch G|ch G|l| |ch G] using mtree_rect'; intros rm b P x' b1 P1 IB; cbn [walk].
    - destruct (on_note T t P b n) as [[n' b']|] eqn:E; [|discriminate]. cbn [bindr]. apply (plain_note _ _ _ _ _ IB) in E. subst b'.
      destruct (walks _ _ _ _ _) as [[[? ?] ?]|]; [|discriminate]. cbn [bindr]. now intros [= _ <- _].
    - destruct (walks _ _ _ _ _) as [[[? ?] ?]|]; [|discriminate]. cbn [bindr]. now intros [= _ <- _].
    - destruct (walks _ _ _ _ _) as [[[? ?] ?]|]; [|discriminate]. cbn [bindr]. now intros [= _ <- _].
    - fold start_body. fold (rel_lead P). destruct (rel_lead P ch) as [[? ?]|]; [|discriminate]. cbn [bindr]. now intros [= _ <- _].
    - fold (fix_lead P). destruct (fix_lead P ch) as [[? ?]|]; [|discriminate]. cbn [bindr]. now intros [= _ <- _].
    - destruct ch as [|y [|z rest]].
      + now intros [= _ <- _].
      + destruct (walk _ _ _ _ _ _ y) as [[[? ?] ?]|]; [|discriminate]. cbn [bindr]. now intros [= _ <- _].
      + destruct (walk _ _ _ _ _ _ y) as [[[? ?] P2]|]; [|discriminate]. cbn [bindr].
        destruct (walk _ _ _ _ _ _ z) as [[[? ?] P3]|]; [|discriminate]. cbn [bindr].
        destruct (walks _ _ _ _ _) as [[[ch' bb] PP]|] eqn:E; [|discriminate]. cbn [bindr]. intros [= _ <- _].
        inversion G as [|? ? _ G1]; subst. inversion G1 as [|? ? _ GR]; subst. exact (stable_all _ GR _ _ _ _ _ _ IB E).
    - now intros [= _ <- _].
    - destruct b; try discriminate; destruct rm;
        (destruct (walks _ _ _ _ _) as [[[ch' bb] PP]|] eqn:E; [|discriminate]); cbn [bindr]; intros [= _ <- _]; exact (stable_all _ G _ _ _ _ _ _ IB E).
    - destruct b; try discriminate; destruct rm;
        (destruct (walks _ _ _ _ _) as [[[ch' bb] PP]|] eqn:E; [|discriminate]); cbn [bindr]; intros [= _ <- _]; exact (stable_all _ G _ _ _ _ _ _ IB E).
    - destruct (language_set T P l) as [P2|]; [|discriminate]. cbn [bindr]. now intros [= _ <- _].
    - now intros [= _ <- _].
    - destruct (walks _ _ _ _ _) as [[[ch' bb] PP]|] eqn:E; [|discriminate]. cbn [bindr]. intros [= _ <- _]. exact (stable_all _ G _ _ _ _ _ _ IB E).
  Qed.

  Lemma plain_state_all l : forall rm b P l' b1 P1, inrel_of b = false ->
    walks (walk T t fa) rm b P l = Ok (l', b1, P1) -> b1 = b.
  Proof. apply stable_all. apply Forall_forall. intros x _. apply plain_state. Qed.

  Theorem all_good x : good x.
  Proof.
    induction x as [n ch G|ch G|ch G|ch G|ch G|ch G|ch|ch G|ch G|l| |ch G] using mtree_rect';
      intros b P d d' pl pl' x' b1 P1 F W I D.
    - cbn [walk full usual] in *. apply andb_prop in F. destruct F as [WN F].
      destruct (on_note T t P b n) as [[n' b']|] eqn:E; [|discriminate]. cbn [bindr].
      destruct (walks (walk T t fa) false (BPlain 0) P ch) as [[[ch' b2] P2]|] eqn:E2; [|discriminate]. cbn [bindr]. intros [= <- <- <-].
      destruct (on_note_spec _ _ d d' _ _ _ _ _ WN I D E) as (h & pl1 & h' & pl1' & R1 & R2 & I1 & K & A).
      destruct (own_place (BPlain 0) ch PAbs PAbs G plain_inv Logic.I P 0%Q 0%Q _ _ _ F W ltac:(reflexivity) E2)
        as (hs & pl2 & hs' & pl2' & X1 & X2 & X).
      cbn [read]. rewrite R1, R2. cbn [bindr]. rewrite X1, X2. cbn [bindr].
      exists (h :: hs), pl1, (h' :: hs'), pl1'. split; [reflexivity|]. split; [reflexivity|]. split; [exact I1|]. split; [exact K|].
      intros AG RK. destruct (A AG) as [A1 A2]. split; [exact A1|]. constructor; [exact A2|]. apply X. intros r q H. apply RK. now right.
    - cbn [walk full usual read] in *. destruct (walks (walk T t fa) false BKeep P ch) as [[[ch' b2] P2]|] eqn:E2; [|discriminate].
      cbn [bindr]. intros [= <- <- <-].
      destruct (own_place BKeep ch PKey PKey G (conj eq_refl eq_refl) Logic.I P d d' _ _ _ F W D E2) as (hs & pl2 & hs' & pl2' & X1 & X2 & X).
      cbn [read]. rewrite X1, X2. cbn [bindr]. exists hs, pl, hs', pl'. repeat split; try assumption. now apply X.
    - cbn [walk full usual read] in *. destruct (walks (walk T t fa) false (BPlain 0) P ch) as [[[ch' b2] P2]|] eqn:E2; [|discriminate].
      cbn [bindr]. intros [= <- <- <-].
      destruct (own_place (BPlain 0) ch PAbs PAbs G plain_inv Logic.I P d d' _ _ _ F W D E2) as (hs & pl2 & hs' & pl2' & X1 & X2 & X).
      cbn [read]. rewrite X1, X2. cbn [bindr]. exists hs, pl, hs', pl'. repeat split; try assumption. now apply X.
    - rewrite walk_relative. cbn [full usual] in F, W.
      destruct (rel_lead P ch) as [[ch' P2]|] eqn:E; [|discriminate]. cbn [bindr]. intros [= <- <- <-].
      destruct (rel_lead_good _ G _ _ _ _ _ F W D E) as (hs & hs' & X1 & X2 & X).
      rewrite !read_relative, X1, X2. cbn [bindr]. exists hs, pl, hs', pl'. repeat split; try assumption. now apply X.
    - rewrite walk_fixed. cbn [full usual] in F, W. apply andb_prop in W. destruct W as [RF W].
      destruct (fix_lead P ch) as [[ch' P2]|] eqn:E; [|discriminate]. cbn [bindr]. intros [= <- <- <-].
      destruct (fix_lead_good _ G _ _ _ _ _ F RF W D E) as (hs & hs' & X1 & X2 & X).
      rewrite !read_fixed, X1, X2. cbn [bindr]. exists hs, pl, hs', pl'. repeat split; try assumption. now apply X.
    - cbn [full usual] in F, W. apply andb_prop in W. destruct W as [W W3]. apply andb_prop in W. destruct W as [W1 W2].
      destruct ch as [|[n c| | | | | | | | | | |] ch]; try discriminate. destruct c; [|discriminate].
      destruct ch as [|[m c| | | | | | | | | | |] rest]; try discriminate. destruct c; [|discriminate].
      cbn [forallb full usual] in F, W3. rewrite !andb_true_r in F. cbn [andb] in W3.
      apply andb_prop in F. destruct F as [WN F]. apply andb_prop in F. destruct F as [WM F].
      inversion G as [|? ? _ G1]; subst. inversion G1 as [|? ? _ GR]; subst. clear G G1.
      cbn [walk on_note walks].
      destruct (transpose_pitch T P t (lower_octave (tr_octave t)) n) as [n'|] eqn:EN; [|discriminate]. cbn [bindr].
      destruct (transpose_pitch T P t (lower_octave (tr_octave t)) m) as [m'|] eqn:EM; [|discriminate]. cbn [bindr].
      assert (NR : is_rel b = false) by (destruct b; try reflexivity; discriminate).
      rewrite <- NR at 1.
      destruct (walks (walk T t fa) (is_rel b) b P rest) as [[[rest' b2] P2]|] eqn:E; [|discriminate]. cbn [bindr]. intros [= <- <- <-].
      destruct (transpose_pitch_spec _ _ _ _ _ _ OK EN) as (_ & _ & XN). destruct (XN WN) as (p & q & p' & R1 & T1 & R1' & PE1).
      destruct (transpose_pitch_spec _ _ _ _ _ _ OK EM) as (_ & _ & XM). destruct (XM WM) as (u & v & u' & R2 & T2 & R2' & PE2).
      assert (D2 : (d' + (height s u' - height s p') == d + (height s u - height s p))%Q).
      { rewrite (peq_height s _ _ PE1), (peq_height s _ _ PE2), D.
        pose proof (transpose_height _ _ _ _ SC T1) as H1. pose proof (transpose_height _ _ _ _ SC T2) as H2.
        assert (LO : forall w, (height s (lower_octave (tr_octave t) w) == height s w - inject_Z (6 * tr_octave t))%Q).
        { intros w. unfold height, lower_octave, with_octave. cbn [octave note alter].
          replace (6 * (octave w - tr_octave t)) with (6 * octave w - 6 * tr_octave t) by lia.
          unfold Z.sub. rewrite inject_Z_plus, inject_Z_opp. ring. }
        rewrite !LO, H1, H2. ring. }
      assert (IB : inrel_of b = false) by (destruct (inrel_of b); [discriminate|reflexivity]).
      destruct (good_goods _ GR b P _ _ pl pl' _ _ _ F W3 I D2 E) as (hs & pl1 & hs' & pl1' & X1 & X2 & I1 & K & X).
      assert (PP : (match pl with PRel _ => PAbs | _ => pl end) = pl /\ (match pl' with PRel _ => PAbs | _ => pl' end) = pl').
      { clear - I IB. destruct b; cbn in IB; try discriminate; cbn in I;
          [destruct I as [(-> & -> & _)|(r1 & r2 & -> & ->)]|destruct I as [-> ->]]; now split. }
      cbn [read]. rewrite R1, R1'. cbn [bindr]. rewrite R2, R2'. cbn [bindr]. rewrite (proj1 PP), (proj2 PP), X1, X2. cbn [bindr].
      exists hs, pl, hs', pl'. split; [reflexivity|]. split; [reflexivity|].
      assert (B2 : b2 = b) by exact (plain_state_all _ _ _ _ _ _ _ IB E).
      subst b2. split; [exact I|]. split; [reflexivity|]. intros A RK. split; [exact A|]. now apply X.
    - cbn [walk read]. intros [= <- <- <-]. exists [], pl, [], pl'. repeat split; try assumption. constructor.
    - cbn [walk full usual] in *. destruct (is_rel b) eqn:RB.
      + destruct b as [| |st| |]; try discriminate.
        destruct (walks (walk T t fa) false (BChord st None) P ch) as [[[ch' b2] P2]|] eqn:E; [|discriminate]. cbn [bindr]. intros [= <- <- <-].
        destruct I as (k & p & p' & -> & -> & I).
        assert (I0 : place_inv (BChord st None) (PChord p None) (PChord p' None)) by (exists k, p, p', None, None; repeat (split; [reflexivity|]); split; [exact I|exact Logic.I]).
        destruct (good_goods _ G (BChord st None) P d d' _ _ _ _ _ F W I0 D E) as (hs & pl1 & hs' & pl1' & X1 & X2 & I1 & K & X).
        cbn [read]. rewrite X1, X2. cbn [bindr]. do 4 eexists. split; [reflexivity|]. split; [reflexivity|].
        destruct b2 as [| | |st2 f|]; try discriminate. destruct I1 as (k2 & q & q' & f1 & f2 & -> & -> & I1 & IF).
        split; [|split; [reflexivity|]].
        * destruct f as [x|], f1 as [y|], f2 as [z|]; try contradiction; [now exists k2, y, z|now exists k, p, p'].
        * intros _ RK. split; [exact Logic.I|]. now apply X.
      + destruct (walks (walk T t fa) false b P ch) as [[[ch' b2] P2]|] eqn:E.
        2:{ destruct b; discriminate. }
        intros H. assert (H' : MChord ch' = x' /\ b2 = b1 /\ P2 = P1) by (destruct b; try discriminate; now injection H).
        destruct H' as (<- & <- & <-). rewrite <- RB in E.
        destruct (good_goods _ G b P d d' _ _ _ _ _ F W I D E) as (hs & pl1 & hs' & pl1' & X1 & X2 & X).
        exists hs, pl1, hs', pl1'. cbn [read].
        assert (NR : (forall q, pl <> PRel q) /\ (forall q, pl' <> PRel q)) by exact (not_rel _ _ _ RB I).
        destruct NR as [N1 N2]. split; [|split; [|exact X]].
        * destruct pl; try exact X1. exfalso. now apply (N1 last).
        * destruct pl'; try exact X2. exfalso. now apply (N2 last).
    - cbn [walk full usual] in *. destruct (is_rel b) eqn:RB.
      + destruct b as [| |st| |]; try discriminate.
        destruct (walks (walk T t fa) false (BCheck st) P ch) as [[[ch' b2] P2]|] eqn:E; [|discriminate]. cbn [bindr]. intros [= <- <- <-].
        destruct I as (k & p & p' & -> & -> & I).
        assert (I0 : place_inv (BCheck st) (PCheck p) (PCheck p')) by (exists k, p, p'; repeat (split; [reflexivity|]); exact I).
        destruct (good_goods _ G (BCheck st) P d d' _ _ _ _ _ F W I0 D E) as (hs & pl1 & hs' & pl1' & X1 & X2 & I1 & K & X).
        cbn [read]. rewrite X1, X2. cbn [bindr]. do 4 eexists. split; [reflexivity|]. split; [reflexivity|].
        destruct b2 as [| | | |st2]; try discriminate. destruct I1 as (k2 & q & q' & -> & -> & I1).
        split; [now exists k2, q, q'|]. split; [reflexivity|]. intros _ RK. split; [exact Logic.I|]. now apply X.
      + destruct (walks (walk T t fa) false b P ch) as [[[ch' b2] P2]|] eqn:E.
        2:{ destruct b; discriminate. }
        intros H. assert (H' : MCheck ch' = x' /\ b2 = b1 /\ P2 = P1) by (destruct b; try discriminate; now injection H).
        destruct H' as (<- & <- & <-). rewrite <- RB in E.
        destruct (good_goods _ G b P d d' _ _ _ _ _ F W I D E) as (hs & pl1 & hs' & pl1' & X1 & X2 & X).
        exists hs, pl1, hs', pl1'. cbn [read].
        assert (NR : (forall q, pl <> PRel q) /\ (forall q, pl' <> PRel q)) by exact (not_rel _ _ _ RB I).
        destruct NR as [N1 N2]. split; [|split; [|exact X]].
        * destruct pl; try exact X1. exfalso. now apply (N1 last).
        * destruct pl'; try exact X2. exfalso. now apply (N2 last).
    - cbn [walk read]. destruct (language_set T P l) as [P2|] eqn:E; [|discriminate]. cbn [bindr]. intros [= <- <- <-].
      cbn [read]. rewrite E. exists [], pl, [], pl'. repeat split; try assumption. constructor.
    - cbn [walk read]. intros [= <- <- <-]. exists [], pl, [], pl'. repeat split; try assumption. constructor.
    - cbn [walk full usual read] in *. destruct (walks (walk T t fa) (is_rel b) b P ch) as [[[ch' b2] P2]|] eqn:E; [|discriminate].
      cbn [bindr]. intros [= <- <- <-]. exact (good_goods _ G b P d d' _ _ _ _ _ F W I D E).
  Qed.
End Doc.

(** ** Nothing but pitches changes *)

Section Frame.
  Variables (T : tables) (t : transposer) (fa : bool).

  Lemma marks_refl n : same_marks n n.
  Proof. repeat split; congruence. Qed.
  Lemma set_marks n n' z : same_marks n n' -> octave_child n' = octave_child n -> same_marks n (set_node_octave n' z).
  Proof.
    intros (A & B & C) E. unfold set_node_octave. destruct (octave_child n') as [o|] eqn:O; [repeat split; cbn; try congruence; apply C|].
    destruct (z =? 0)%Z eqn:Z0; [rewrite <- O in E; repeat split; try congruence; apply C|].
    repeat split; cbn; try congruence; try apply C. intros _ H. injection H as ->. discriminate.
  Qed.
  Lemma write_marks P n p n' r : write_node T P n p = (n', r) -> same_marks n n'.
  Proof.
    unfold write_node. destruct (pitch_of_name T P (head n)) as [q|]; [|intros [= <- _]; apply marks_refl].
    destruct (_ && _)%bool; [intros [= <- _]; now apply set_marks; [apply marks_refl|]|].
    destruct (name_octave T P p) as [[h o]|]; [|intros [= <- _]; apply marks_refl].
    intros [= <- _]. apply set_marks; [|reflexivity]. repeat split; cbn; congruence.
  Qed.
  Lemma process_marks P n w f n' r : process T P n w f = (n', r) -> same_marks n n'.
  Proof.
    unfold process. destruct (read_node T P n) as [p|]; [|intros [= <- _]; apply marks_refl].
    destruct (f p) as [p'|]; [|intros [= <- _]; apply marks_refl]. destruct w; [|intros [= <- _]; apply marks_refl].
    destruct (write_node T P n p') as [m r'] eqn:W. intros [= <- _]. exact (write_marks _ _ _ _ _ W).
  Qed.
  Lemma pair_ok {A B} (x : A * res B) a : of_pair x = Ok a -> exists b, x = (a, Ok b).
  Proof. destruct x as [y [b|]]; [|discriminate]. intros [= ->]. now exists b. Qed.
  Lemma pitch_marks P adj n m : transpose_pitch T P t adj n = Ok m -> same_marks (r_node n) (r_node m).
  Proof.
    unfold transpose_pitch. destruct (of_pair _) as [m0|] eqn:E; [|discriminate]. intros [= <-].
    apply pair_ok in E. destruct E as [b E]. exact (process_marks _ _ _ _ _ _ E).
  Qed.
  Lemma note_marks P n last m s : transpose_note T P t n last = Ok (m, s) -> same_marks (r_node n) (r_node m).
  Proof.
    unfold transpose_note. destruct (read_node T P (r_node n)) as [p|]; [|discriminate]. cbn [bindr].
    destruct (negb (r_writable n)); [intros [= <- _]; apply marks_refl|].
    destruct (transpose t _) as [q|]; [|discriminate]. cbn [bindr]. destruct (of_pair _) as [m0|] eqn:E; [|discriminate]. intros [= <- _].
    apply pair_ok in E. destruct E as [b E]. apply write_marks in E. cbn [r_node].
    destruct (oct_check (r_node n)) eqn:O; [|exact E]. destruct E as (A & B & C). cbn in A, B, C. repeat split; try assumption.
    - intros X. apply C in X. discriminate.
    - congruence.
  Qed.
  Lemma on_note_marks P b n n' b' : on_note T t P b n = Ok (n', b') -> same_marks (r_node n) (r_node n').
  Proof.
    destruct b as [k| |st|st f|st]; cbn [on_note].
    - destruct (transpose_pitch T P t (lower_octave k) n) as [m|] eqn:E; [|discriminate]. intros [= <- _]. eapply pitch_marks; eassumption.
    - destruct (of_pair _) as [m|] eqn:E; [|discriminate]. intros [= <- _].
      apply pair_ok in E. destruct E as [x E]. exact (process_marks _ _ _ _ _ _ E).
    - destruct (transpose_note T P t n st) as [[m s1]|] eqn:E; [|discriminate]. intros [= <- _]. eapply note_marks; eassumption.
    - destruct (transpose_note T P t n st) as [[m s1]|] eqn:E; [|discriminate]. intros [= <- _]. eapply note_marks; eassumption.
    - destruct (read_node T P (r_node n)) as [p|]; [|discriminate]. cbn [bindr]. destruct (r_writable n); [|intros [= <- _]; apply marks_refl].
      destruct (transpose t p) as [q|]; [|discriminate]. cbn [bindr]. destruct (of_pair _) as [m|] eqn:E; [|discriminate].
      intros [= <- _]. apply pair_ok in E. destruct E as [x E]. exact (write_marks _ _ _ _ _ E).
  Qed.

  Lemma same_refl x : same_but_pitches x x.
  Proof.
    induction x as [n ch G|ch G|ch G|ch G|ch G|ch G|ch|ch G|ch G|l| |ch G] using mtree_rect';
      try (constructor; try reflexivity; try exact Logic.I; try apply marks_refl; induction G; constructor; assumption).
  Qed.
  Lemma same_refl_all l : Forall2 same_but_pitches l l.
  Proof. induction l; constructor; [apply same_refl|assumption]. Qed.

  Lemma transpose_pitch_frame P adj n m : transpose_pitch T P t adj n = Ok m -> frame n m.
  Proof.
    unfold transpose_pitch. destruct (of_pair _) as [m0|] eqn:E; [|discriminate]. cbn [bindr]. intros [= <-].
    split; cbn [r_writable]; [reflexivity|]. intros W. rewrite W in *. revert E. unfold process, of_pair.
    destruct (read_node T P (r_node n)) as [p|]; [|discriminate]. destruct (transpose t p) as [q|]; cbn [bindr of_pair]; [|discriminate].
    cbn [of_pair bindr]. intros [= <-]. destruct n. cbn in W |- *. now subst.
  Qed.

  Lemma on_note_frame P b n n' b' : on_note T t P b n = Ok (n', b') -> frame n n'.
  Proof.
    destruct b as [k| |st|st f|st]; cbn [on_note].
    - destruct (transpose_pitch T P t (lower_octave k) n) as [m|] eqn:E; [|discriminate]. cbn [bindr]. intros [= <- _].
      eapply transpose_pitch_frame; eassumption.
    - destruct (of_pair _) as [m|] eqn:E; [|discriminate]. cbn [bindr]. intros [= <- _].
      split; cbn [r_writable]; [reflexivity|]. intros W. rewrite W in *. revert E. unfold process, of_pair.
      destruct (read_node T P (r_node n)) as [p|]; [|discriminate]. destruct (transpose t p) as [q|]; cbn [bindr of_pair]; [|discriminate].
      cbn [of_pair bindr]. intros [= <-]. destruct n. cbn in W |- *. now subst.
    - destruct (transpose_note T P t n st) as [[m s1]|] eqn:E; [|discriminate]. cbn [bindr]. intros [= <- _].
      eapply transpose_note_frame; eassumption.
    - destruct (transpose_note T P t n st) as [[m s1]|] eqn:E; [|discriminate]. cbn [bindr]. intros [= <- _].
      eapply transpose_note_frame; eassumption.
    - destruct (read_node T P (r_node n)) as [p|]; [|discriminate]. cbn [bindr]. destruct (r_writable n) eqn:W.
      + destruct (transpose t p) as [q|]; [|discriminate]. cbn [bindr]. destruct (of_pair _) as [m|]; [|discriminate].
        cbn [bindr]. intros [= <- _]. split; [now rewrite W|congruence].
      + intros [= <- _]. now split.
  Qed.

  Definition framed (x : mtree) : Prop := forall rm b P x' b1 P1, walk T t fa rm b P x = Ok (x', b1, P1) -> same_but_pitches x x'.
  Lemma framed_all l : Forall framed l -> forall rm b P l' b1 P1,
    walks (walk T t fa) rm b P l = Ok (l', b1, P1) -> Forall2 same_but_pitches l l'.
  Proof.
    induction 1 as [|x r G _ IH]; intros rm b P l' b1 P1; cbn [walks].
    - intros [= <- _ _]. constructor.
    - destruct (walk T t fa rm b P x) as [[[x' b2] P2]|] eqn:E; [|discriminate]. cbn [bindr]. fold (walks (walk T t fa)).
      destruct (walks (walk T t fa) rm b2 P2 r) as [[[r' b3] P3]|] eqn:E2; [|discriminate]. cbn [bindr]. intros [= <- _ _].
      constructor; [exact (G _ _ _ _ _ _ E)|exact (IH _ _ _ _ _ _ E2)].
  Qed.

  Lemma rel_lead_frame ch : Forall framed ch -> forall P ch' P1, rel_lead T t fa P ch = Ok (ch', P1) -> Forall2 same_but_pitches ch ch'.
  Proof.
    induction 1 as [|x r G GR IH]; intros P ch' P1.
    - cbn. intros [= <- _]. constructor.
    - pose proof (framed_all _ (Forall_cons _ G GR)) as GS. pose proof (framed_all _ GR) as GS'.
      assert (PL : (let! (l', _, P') := walks (walk T t fa) true (start_body fa) P (x :: r) in Ok (l', P')) = Ok (ch', P1) ->
        Forall2 same_but_pitches (x :: r) ch').
      { intros H. destruct (walks (walk T t fa) true (start_body fa) P (x :: r)) as [[[l2 b2] P2]|] eqn:E; [|discriminate].
        cbn [bindr] in H. injection H as <- _. exact (GS _ _ _ _ _ _ E). }
      destruct x as [n c| | | | | | | | | | |]; try exact PL.
      + cbn [rel_lead]. destruct (existsb _ r); [|exact PL]. destruct (read_node T P (r_node n)) as [p|]; [|discriminate]. cbn [bindr].
        destruct (r_writable n) eqn:WN.
        * destruct (transpose t p) as [q|]; [|discriminate]. cbn [bindr]. destruct (of_pair _) as [m|] eqn:OP; [|discriminate]. cbn [bindr]. cbv zeta.
          match goal with |- (let! _ := ?e in _) = _ -> _ => destruct e as [[[r' b'] P']|] eqn:E end; [|discriminate]. cbn [bindr]. intros [= <- _].
          constructor; [|exact (GS' _ _ _ _ _ _ E)]. apply pair_ok in OP. destruct OP as [? OP].
          constructor; [now rewrite WN|congruence|exact (write_marks _ _ _ _ _ OP)|apply same_refl_all].
        * match goal with |- (let! _ := ?e in _) = _ -> _ => destruct e as [[[r' b'] P']|] eqn:E end; [|discriminate]. cbn [bindr]. intros [= <- _].
          constructor; [apply same_refl|exact (GS' _ _ _ _ _ _ E)].
      + cbn [rel_lead]. fold (rel_lead T t fa P). destruct (rel_lead T t fa P r) as [[r' P']|] eqn:E; [|discriminate]. cbn [bindr].
        intros [= <- _]. constructor; [apply same_refl|exact (IH _ _ _ E)].
  Qed.

  Lemma fix_lead_frame ch : Forall framed ch -> forall P ch' P1, fix_lead T t fa P ch = Ok (ch', P1) -> Forall2 same_but_pitches ch ch'.
  Proof.
    induction 1 as [|x r G GR IH]; intros P ch' P1.
    - cbn. intros [= <- _]. constructor.
    - pose proof (framed_all _ GR) as GS'.
      destruct x as [n c| | | | | | | | | | |]; cbn [fix_lead];
        try (match goal with |- (let! _ := ?e in _) = _ -> _ => destruct e as [[[r' b'] P']|] eqn:E end; [|discriminate]; cbn [bindr]; intros [= <- _];
             constructor; [apply same_refl|exact (GS' _ _ _ _ _ _ E)]).
      + destruct (r_writable n) eqn:WN.
        * destruct (transpose_pitch _ _ _ _ _) as [m|] eqn:TP; [|discriminate]. cbn [bindr].
          match goal with |- (let! _ := ?e in _) = _ -> _ => destruct e as [[[r' b'] P']|] eqn:E end; [|discriminate]. cbn [bindr]. intros [= <- _].
          constructor; [|exact (GS' _ _ _ _ _ _ E)]. pose proof (pitch_marks _ _ _ _ TP) as PM. apply transpose_pitch_frame in TP. destruct TP.
          constructor; [assumption|assumption|exact PM|apply same_refl_all].
        * match goal with |- (let! _ := ?e in _) = _ -> _ => destruct e as [[[r' b'] P']|] eqn:E end; [|discriminate]. cbn [bindr]. intros [= <- _].
          constructor; [apply same_refl|exact (GS' _ _ _ _ _ _ E)].
      + fold (fix_lead T t fa P). destruct (fix_lead T t fa P r) as [[r' P']|] eqn:E; [|discriminate]. cbn [bindr].
        intros [= <- _]. constructor; [apply same_refl|exact (IH _ _ _ E)].
  Qed.

  Theorem walk_framed x : framed x.
  Proof.
    induction x as [n ch G|ch G|ch G|ch G|ch G|ch G|ch|ch G|ch G|l| |ch G] using mtree_rect'; intros rm b P x' b1 P1; cbn [walk].
    - destruct (on_note T t P b n) as [[n' b']|] eqn:E; [|discriminate]. cbn [bindr].
      destruct (walks _ _ _ _ _) as [[[ch' b2] P2]|] eqn:E2; [|discriminate]. cbn [bindr]. intros [= <- _ _].
      pose proof (on_note_marks _ _ _ _ _ E) as PM. apply on_note_frame in E. destruct E. constructor; [assumption|assumption|exact PM|exact (framed_all _ G _ _ _ _ _ _ E2)].
    - destruct (walks _ _ _ _ _) as [[[ch' b2] P2]|] eqn:E2; [|discriminate]. cbn [bindr]. intros [= <- _ _].
      constructor. exact (framed_all _ G _ _ _ _ _ _ E2).
    - destruct (walks _ _ _ _ _) as [[[ch' b2] P2]|] eqn:E2; [|discriminate]. cbn [bindr]. intros [= <- _ _].
      constructor. exact (framed_all _ G _ _ _ _ _ _ E2).
    - fold (start_body fa). fold (rel_lead T t fa P). destruct (rel_lead T t fa P ch) as [[ch' P2]|] eqn:E; [|discriminate]. cbn [bindr].
      intros [= <- _ _]. constructor. exact (rel_lead_frame _ G _ _ _ E).
    - fold (fix_lead T t fa P). destruct (fix_lead T t fa P ch) as [[ch' P2]|] eqn:E; [|discriminate]. cbn [bindr].
      intros [= <- _ _]. constructor. exact (fix_lead_frame _ G _ _ _ E).
    - destruct ch as [|y [|z rest]].
      + intros [= <- _ _]. apply same_refl.
      + inversion G as [|? ? G0 _]; subst.
        destruct (walk _ _ _ _ _ _ y) as [[[y' b2] P2]|] eqn:E; [|discriminate]. cbn [bindr]. intros [= <- _ _].
        constructor. constructor; [exact (G0 _ _ _ _ _ _ E)|constructor].
      + inversion G as [|? ? G0 G1]; subst. inversion G1 as [|? ? G2 GR]; subst.
        destruct (walk _ _ _ _ _ _ y) as [[[y' by'] P2]|] eqn:E0; [|discriminate]. cbn [bindr].
        destruct (walk _ _ _ _ _ _ z) as [[[z' bz'] P3]|] eqn:E1; [|discriminate]. cbn [bindr].
        destruct (walks _ _ _ _ _) as [[[rest' b2] P4]|] eqn:E; [|discriminate]. cbn [bindr]. intros [= <- _ _].
        constructor. constructor; [exact (G0 _ _ _ _ _ _ E0)|]. constructor; [exact (G2 _ _ _ _ _ _ E1)|].
        exact (framed_all _ GR _ _ _ _ _ _ E).
    - intros [= <- _ _]. apply same_refl.
    - destruct rm; [destruct b|];
        (destruct (walks _ _ _ _ _) as [[[ch' bb] PP]|] eqn:E; [|discriminate]); cbn [bindr]; intros [= <- _ _];
        constructor; exact (framed_all _ G _ _ _ _ _ _ E).
    - destruct rm; [destruct b|];
        (destruct (walks _ _ _ _ _) as [[[ch' bb] PP]|] eqn:E; [|discriminate]); cbn [bindr]; intros [= <- _ _];
        constructor; exact (framed_all _ G _ _ _ _ _ _ E).
    - destruct (language_set T P l) as [P2|]; [|discriminate]. cbn [bindr]. intros [= <- _ _]. apply same_refl.
    - intros [= <- _ _]. apply same_refl.
    - destruct (walks _ _ _ _ _) as [[[ch' bb] PP]|] eqn:E; [|discriminate]. cbn [bindr]. intros [= <- _ _].
      constructor. exact (framed_all _ G _ _ _ _ _ _ E).
  Qed.

  Lemma walk_frame rm b P x x' b1 P1 : walk T t fa rm b P x = Ok (x', b1, P1) -> same_but_pitches x x'.
  Proof. apply walk_framed. Qed.
End Frame.
