(** Properties C20-C28 and C68: transposing. *)
From Coq Require Import String Ascii List ZArith QArith Lqa Bool Lia.
From Coq Require Import ZifyBool ZifyNat.
From Verif Require Import Base Pitch_Model Pitch_Spec Pitch_Proofs Pitch_Lang Transpose_Model Transpose_Spec Transpose_Proofs Transpose_Select.
Import ListNotations.
Open Scope Z_scope.

(** Pitches for the examples. *)
Definition c0 : pitch := Pitch (-1) 0 0.
Definition c1 : pitch := Pitch 0 0 0.
Definition d0 : pitch := Pitch (-1) 1 0.
Definition major_transposer (a b : pitch) : transposer := make_transposer a b major_scale.

(** ** C20: a constant interval *)

(** For every scale; that [transpose] returns is C21. *)
Theorem C20_constant_interval : forall t s p q, tr_scale t = Some s -> transpose t p = Ok q ->
  (height s q == height s p + interval t)%Q.
Proof. exact transpose_height. Qed.
Print Assumptions C20_constant_interval.

(** The interval of Transposer(a, b) is the distance from a to b. *)
Theorem C20_interval : forall a b s, (interval (make_transposer a b s) == height s b - height s a)%Q.
Proof. exact interval_make. Qed.
Print Assumptions C20_interval.

Example C20_witness : (* bisis up an augmented fourth is respelled: fisis *)
  exists q, transpose (major_transposer c0 (Pitch (-1) 3 (1#2))) (Pitch (-1) 6 1) = Ok q /\
    octave q = 0 /\ note q = 3 /\ (alter q == 1)%Q /\ (height major_scale q == 7#2)%Q.
Proof. eexists. split; [vm_compute; reflexivity|]. repeat split; vm_compute; reflexivity. Qed.

(** ** C21: normal form *)

(** [shifted] is the result of the plain step shift. *)
Definition plain_shift (t : transposer) (s : list Q) (p : pitch) : pitch :=
  let k := staff p + 7 * tr_octave t + tr_steps t in
  Pitch (k / 7) (k mod 7)
    (height s p + interval t - (inject_Z (6 * (k / 7)) + nth (Z.to_nat (k mod 7)) s 0))%Q.

Theorem C21_normal_form : forall t s p, tr_scale t = Some s -> good_scale s -> valid_note p ->
  exists q, transpose t p = Ok q /\ normal q /\
    (let k := plain_shift t s p in (-1 <= alter k <= 1)%Q -> peq q k).
Proof.
  intros t s p TS G V. destruct (transpose_spec t s p TS G) as (q & Q1 & Q2 & Q3 & Q4).
  exists q. split; [exact Q1|]. split; [exact Q2|]. intros k A.
  assert (E : peq (shifted t s p) k).
  { assert (O : octave (shifted t s p) = octave k /\ note (shifted t s p) = note k).
    { unfold shifted, k, plain_shift, staff. cbn [octave note].
      replace (7 * octave p + note p + 7 * tr_octave t + tr_steps t)
        with ((note p + tr_steps t) + (octave p + tr_octave t) * 7) by lia.
      rewrite Z.div_add, Z.mod_add by lia. split; lia. }
    destruct O as [O1 O2]. split; [exact O1|]. split; [exact O2|].
    pose proof (shifted_height t s p) as SH.
    unfold height in SH at 1. unfold k, plain_shift in O1, O2 |- *. cbn [octave note alter] in O1, O2 |- *.
    rewrite O1, O2 in SH. rewrite <- SH. ring. }
  rewrite Q4; [exact E|]. destruct E as (_ & _ & E). rewrite E. exact A.
Qed.
Print Assumptions C21_normal_form.

(** The major scale qualifies. *)
Theorem C21_major_scale : good_scale major_scale.
Proof. exact major_good. Qed.
Print Assumptions C21_major_scale.

Example C21_witness : (* up a doubly augmented unison, from ces to cisis: not respelled;
   from cis: respelled to d *)
  let t := major_transposer (Pitch (-1) 0 (-1#2)) (Pitch (-1) 0 (1#2)) in
  (exists q, transpose t (Pitch 0 0 0) = Ok q /\ note q = 0 /\ (alter q == 1)%Q) /\
  (exists q, transpose t (Pitch 0 0 (1#2)) = Ok q /\ note q = 1 /\ (alter q == 1#2)%Q).
Proof. split; eexists; (split; [vm_compute; reflexivity|split; vm_compute; reflexivity]). Qed.

(** ** C22: from and to *)

Theorem C22_from_to : forall a b s, good_scale s -> valid_note a -> valid_note b ->
  exists q, transpose (make_transposer a b s) a = Ok q /\
    (height s q == height s b)%Q /\ ((-1 <= alter b <= 1)%Q -> peq q b).
Proof.
  intros a b s G V W. destruct (transpose_spec (make_transposer a b s) s a eq_refl G) as (q & Q1 & Q2 & Q3 & Q4).
  exists q. split; [exact Q1|]. split; [rewrite Q3, interval_make; ring|].
  intros H. pose proof (shifted_from a b s V W) as S. rewrite Q4; [exact S|].
  destruct S as (_ & _ & S). rewrite S. exact H.
Qed.
Print Assumptions C22_from_to.

Example C22_witness : exists q, transpose (major_transposer (Pitch 1 6 (1#2)) (Pitch (-2) 2 (-1))) (Pitch 1 6 (1#2)) = Ok q /\
  octave q = -2 /\ note q = 2 /\ (alter q == -1)%Q.
Proof. eexists. split; [vm_compute; reflexivity|]. repeat split; vm_compute; reflexivity. Qed.

(** ** C23: back and forth *)

Theorem C23_back_and_forth : forall a b s p, good_scale s -> normal p ->
  exists q r, transpose (make_transposer a b s) p = Ok q /\ transpose (make_transposer b a s) q = Ok r /\
    (height s r == height s p)%Q /\
    ((-1 <= alter (plain_shift (make_transposer a b s) s p) <= 1)%Q -> peq r p).
Proof.
  intros a b s p G (V & A1 & A2).
  destruct (C21_normal_form (make_transposer a b s) s p eq_refl G V) as (q & Q1 & Q2 & Q3).
  destruct (transpose_spec (make_transposer a b s) s p eq_refl G) as (q' & Q1' & _ & Q3' & Q4').
  rewrite Q1 in Q1'. injection Q1' as <-.
  destruct (transpose_spec (make_transposer b a s) s q eq_refl G) as (r & R1 & R2 & R3 & R4).
  exists q, r. split; [exact Q1|]. split; [exact R1|]. split; [rewrite R3, Q3', !interval_make; ring|].
  intros H. specialize (Q3 H). cbv zeta in Q3.
  assert (QS : peq q (shifted (make_transposer a b s) s p)).
  { rewrite Q4'; [apply peq_refl|].
    assert (O : octave (shifted (make_transposer a b s) s p) = octave (plain_shift (make_transposer a b s) s p) /\
                note (shifted (make_transposer a b s) s p) = note (plain_shift (make_transposer a b s) s p)).
    { unfold shifted, plain_shift, staff. cbn [octave note].
      set (t := make_transposer a b s).
      replace (7 * octave p + note p + 7 * tr_octave t + tr_steps t)
        with ((note p + tr_steps t) + (octave p + tr_octave t) * 7) by lia.
      rewrite Z.div_add, Z.mod_add by lia. split; lia. }
    assert (E : (alter (shifted (make_transposer a b s) s p) == alter (plain_shift (make_transposer a b s) s p))%Q).
    { destruct O as [O1 O2]. pose proof (shifted_height (make_transposer a b s) s p) as SH.
      unfold height in SH at 1. unfold plain_shift in O1, O2 |- *. cbn [octave note alter] in O1, O2 |- *.
      rewrite O1, O2 in SH. rewrite <- SH. ring. }
    rewrite E. exact H. }
  pose proof (shifted_peq (make_transposer b a s) s _ _ QS) as S1.
  pose proof (peq_trans _ _ _ S1 (shifted_back a b s p V)) as S2.
  rewrite R4; [exact S2|]. destruct S2 as (_ & _ & E). rewrite E. split; assumption.
Qed.
Print Assumptions C23_back_and_forth.

Example C23_witness :
  normal (Pitch 0 6 (1#2)) /\
  (-1 <= alter (plain_shift (major_transposer c0 (Pitch 0 2 (-1#2))) major_scale (Pitch 0 6 (1#2))) <= 1)%Q.
Proof. split; [unfold normal, valid_note; cbn; repeat split; try lia; unfold Qle; cbn; lia|]. split; vm_compute; discriminate. Qed.

(** ** C24: sum and difference *)

(** Full statement: the sum can be applied and transposes by the sum of the
    intervals; the difference reverts.  Proved: the sum has the right interval,
    and the difference has when the steps do not borrow an octave.  Applying
    either raises AttributeError: see the refutations. *)
Theorem C24_sum_partial : forall a b, (interval (transposer_add a b) == interval a + interval b)%Q.
Proof. exact interval_add. Qed.
Print Assumptions C24_sum_partial.

(** Given a scale afterwards (t.scale = ...), the sum moves every pitch as both
    do one after the other. *)
Theorem C24_sum_with_scale : forall a b s p q r,
  good_scale s -> tr_scale a = Some s -> tr_scale b = Some s -> 
  transpose a p = Ok q -> transpose b q = Ok r ->
  let t := transposer_add a b in
  exists r', transpose (Transposer (tr_octave t) (tr_steps t) (tr_alter t) (Some s)) p = Ok r' /\
    (height s r' == height s r)%Q.
Proof.
  intros a b s p q r G SA SB TA TB t.
  destruct (transpose_spec (Transposer (tr_octave t) (tr_steps t) (tr_alter t) (Some s)) s p eq_refl G) as (r' & R1 & _ & R2 & _).
  exists r'. split; [exact R1|]. rewrite R2, (transpose_height b s q r SB TB), (transpose_height a s p q SA TA).
  change (interval (Transposer (tr_octave t) (tr_steps t) (tr_alter t) (Some s))) with (interval t).
  unfold t. rewrite interval_add. ring.
Qed.
Print Assumptions C24_sum_with_scale.

(** The sum and the difference in steps of the scale, 7 to the octave. *)
Theorem C24_steps : forall a b, let total t := 7 * tr_octave t + tr_steps t in
  total (transposer_add a b) = total a + total b /\ total (transposer_sub a b) = total a - total b /\
  0 <= tr_steps (transposer_add a b) < 7 /\ 0 <= tr_steps (transposer_sub a b) < 7.
Proof.
  intros a b total. unfold total, transposer_add, transposer_sub. cbn [tr_octave tr_steps].
  pose proof (Z.div_mod (tr_steps a + tr_steps b) 7). pose proof (Z.div_mod (tr_steps a - tr_steps b) 7).
  pose proof (Z.mod_pos_bound (tr_steps a + tr_steps b) 7). pose proof (Z.mod_pos_bound (tr_steps a - tr_steps b) 7). lia.
Qed.
Print Assumptions C24_steps.

Theorem C24_difference_partial : forall a b, 0 <= tr_steps a - tr_steps b <= 6 ->
  (interval (transposer_sub a b) == interval a - interval b)%Q.
Proof.
  intros a b H. rewrite interval_sub. replace ((tr_steps a - tr_steps b) / 7) with 0.
  - change (inject_Z (12 * 0)) with 0%Q. ring.
  - symmetry. apply Z.div_small. lia.
Qed.
Print Assumptions C24_difference_partial.

Example C24_witness : let t := transposer_add (major_transposer c0 (Pitch (-1) 5 0)) (major_transposer c0 (Pitch (-1) 4 0)) in
  tr_octave t = 1 /\ tr_steps t = 2 /\ (tr_alter t == 2)%Q /\
  0 <= tr_steps (major_transposer c0 d0) - tr_steps (major_transposer c0 c0) <= 6.
Proof. repeat split; try (vm_compute; reflexivity); vm_compute; discriminate. Qed.

(** No sum or difference can be applied: the scale attribute is missing. *)
Theorem C24_apply_refuted : forall a b p,
  transpose (transposer_add a b) p = Err AttributeError /\ transpose (transposer_sub a b) p = Err AttributeError.
Proof. intros. split; reflexivity. Qed.
Print Assumptions C24_apply_refuted.

(** And the difference is two octaves off as soon as the steps borrow. *)
Theorem C24_difference_refuted : let u := major_transposer c0 c0 in let t := major_transposer c0 d0 in
  (interval (transposer_sub u t) == interval u - interval t - 12)%Q.
Proof. vm_compute. reflexivity. Qed.
Print Assumptions C24_difference_refuted.

(** ** C25: relative music *)

Theorem C25_relative_music : forall T P t o first_absolute start l start' l',
  tables_ok T -> uniform T P o ->
  all_writable (opt_list start) -> Forall (fun e => all_writable (event_notes e)) l ->
  transpose_relative T P t first_absolute start l = Ok (start', l') ->
  exists ps ps', rel_expression T P first_absolute start l = Ok ps /\
    rel_expression T P first_absolute start' l' = Ok ps' /\
    Forall2 (fun p p' => transposed t (fst p) (fst p')) ps ps'.
Proof.
  intros T P t o fa start l start' l' OK U W1 W2 H.
  destruct (transpose_relative_spec _ _ _ _ _ _ _ _ _ OK U W1 W2 H) as (ps & ps' & R1 & R2 & F).
  exists ps, ps'. split; [exact R1|]. split; [exact R2|]. eapply Forall2_impl; [|exact F].
  intros a b [X|X]; apply X.
Qed.
Print Assumptions C25_relative_music.

(** Pitch names for the examples: c d e f g a b and some altered names. *)
Definition ex_names : table :=
  [(txt "c", (-1, 0, 0%Q)); (txt "d", (-1, 1, 0%Q)); (txt "e", (-1, 2, 0%Q)); (txt "f", (-1, 3, 0%Q));
   (txt "g", (-1, 4, 0%Q)); (txt "a", (-1, 5, 0%Q)); (txt "b", (-1, 6, 0%Q));
   (txt "cis", (-1, 0, (1#2)%Q)); (txt "fis", (-1, 3, (1#2)%Q)); (txt "bes", (-1, 6, (-1#2)%Q))].
Definition ex_tables : tables := [(txt "nederlands", (0%nat, ex_names))].
Definition ex_note (h : string) (o : Z) : rnote := RNote (PNode (txt h) (if o =? 0 then None else Some o) None) true.

Lemma ex_tables_ok : tables_ok ex_tables.
Proof.
  assert (D : forall l : list str, (fix nd (l : list str) := match l with [] => true | x :: r => negb (in_strs x r) && nd r end) l = true -> NoDup l).
  { induction l as [|x r IH]; intros H; [constructor|]. apply andb_prop in H. destruct H as [A B].
    constructor; [|now apply IH]. intros C. apply in_strs_iff in C. rewrite C in A. discriminate. }
  split; [apply D; vm_compute; reflexivity|].
  intros l i t [H|[]]. injection H as <- <- <-. apply D; vm_compute; reflexivity.
Qed.
Lemma ex_uniform : uniform ex_tables default_processor (-1).
Proof.
  intros t name o n a TL I. vm_compute in TL. injection TL as <-.
  repeat (destruct I as [I|I]; [injection I as _ <- <- _; lia|]). destruct I.
Qed.

Example C25_witness : (* \relative c' { d <b e g> b, } up from c to f *)
  let l := [ENote (ex_note "d" 0); EChord [ex_note "b" 0; ex_note "e" 0; ex_note "g" 0]; ENote (ex_note "b" (-1))] in
  transpose_relative ex_tables default_processor (major_transposer c0 (Pitch (-1) 3 0)) false (Some (ex_note "c" 1)) l
  = Ok (Some (RNote (PNode (txt "f") (Some 1) None) true),
        [ENote (ex_note "g" 0); EChord [ex_note "e" 0; ex_note "a" 0; ex_note "c" 0];
         ENote (RNote (PNode (txt "e") (Some (-1)) None) true)]).
Proof. vm_compute. reflexivity. Qed.

(** ** C26: octave checks *)

(** Full statement: for all transposers.  Proved: when there is no start
    pitch or the transposer has no octave of its own. *)
Theorem C26_octave_checks_partial : forall T P t o first_absolute start l start' l',
  tables_ok T -> uniform T P o ->
  all_writable (opt_list start) -> Forall (fun e => all_writable (event_notes e)) l ->
  start = None \/ tr_octave t = 0 ->
  transpose_relative T P t first_absolute start l = Ok (start', l') ->
  exists ps ps', rel_expression T P first_absolute start l = Ok ps /\
    rel_expression T P first_absolute start' l' = Ok ps' /\
    Forall2 (fun p p' => match snd p' with
                         | Some o => snd p <> None /\ o = octave (fst p')
                         | None => snd p = None
                         end) ps ps'.
Proof.
  intros T P t o fa start l start' l' OK U W1 W2 K H.
  destruct (transpose_relative_spec _ _ _ _ _ _ _ _ _ OK U W1 W2 H) as (ps & ps' & R1 & R2 & F).
  exists ps, ps'. split; [exact R1|]. split; [exact R2|]. eapply Forall2_impl; [|exact F].
  assert (K0 : match start with Some _ => tr_octave t | None => 0 end = 0).
  { destruct K as [->|K]; [reflexivity|]. destruct start; [exact K|reflexivity]. }
  rewrite K0. intros a b [[_ X]|[_ X]]; destruct (snd b); try exact X; (split; [apply X|]; lia).
Qed.
Print Assumptions C26_octave_checks_partial.

Example C26_witness : (* \relative { c'=' b=' } *)
  let l := [ENote (RNote (PNode (txt "c") (Some 1) (Some 1)) true); ENote (RNote (PNode (txt "b") None (Some 0)) true)] in
  (exists ps, rel_expression ex_tables default_processor true None l = Ok ps /\
     Forall (fun p => snd p = Some (octave (fst p))) ps) /\
  transpose_relative ex_tables default_processor (major_transposer c0 d0) true None l =
   Ok (None, [ENote (RNote (PNode (txt "d") (Some 1) (Some 1)) true); ENote (RNote (PNode (txt "cis") None (Some 1)) true)]).
Proof. split; [eexists; split; [vm_compute; reflexivity|repeat constructor]|vm_compute; reflexivity]. Qed.

(** With a start pitch and an octave in the transposer the checks go wrong:
    \relative c' { c=' } an octave up gives \relative c'' { c=' }. *)
Theorem C26_octave_checks_refuted :
  let l := [ENote (RNote (PNode (txt "c") None (Some 1)) true)] in
  let t := major_transposer c0 c1 in
  (exists p, rel_expression ex_tables default_processor true (Some (ex_note "c" 1)) l = Ok [(c1, None); (p, Some (octave p))]) /\
  transpose_relative ex_tables default_processor t true (Some (ex_note "c" 1)) l = Ok (Some (ex_note "c" 2), l) /\
  (exists p, rel_expression ex_tables default_processor true (Some (ex_note "c" 2)) l = Ok [(Pitch 1 0 0, None); (p, Some (octave p - 1))]).
Proof.
  split; [exists c1; vm_compute; reflexivity|]. split; [vm_compute; reflexivity|exists (Pitch 1 0 0); vm_compute; reflexivity].
Qed.
Print Assumptions C26_octave_checks_refuted.

(** ** C27: \fixed music *)

(** Full statement: for all reference pitches.  Proved: when transposing the
    reference pitch moves it by just the octaves of the transposer, i.e. it does
    not cross into another octave. *)
Theorem C27_fixed_music_partial : forall T P t ref l ref' l' r r1,
  tables_ok T -> r_writable ref = true -> all_writable l ->
  transpose_fixed T P t ref l = Ok (ref', l') ->
  read_node T P (r_node ref) = Ok r -> transpose t r = Ok r1 -> octave r1 = octave r + tr_octave t ->
  exists r', read_node T P (r_node ref') = Ok r' /\ transposed t r r' /\
    Forall2 (fun n n' => exists p p', read_node T P (r_node n) = Ok p /\ read_node T P (r_node n') = Ok p' /\
      transposed t (fixed_pitch r p) (fixed_pitch r' p')) l l'.
Proof.
  intros T P t ref l ref' l' r r1 OK W WL H R TR O. unfold transpose_fixed in H. rewrite W in H.
  destruct (transpose_pitch T P t (fun p => p) ref) as [m|] eqn:TP; [|discriminate]. cbn [bindr] in H.
  destruct (map_notes _ l) as [l2|] eqn:ML; [|discriminate]. cbn [bindr] in H. injection H as <- <-.
  destruct (transpose_pitch_spec _ _ _ _ _ _ OK TP) as (_ & _ & X). destruct (X W) as (p & q & r' & X1 & X2 & X3 & X4).
  rewrite R in X1. injection X1 as <-. rewrite TR in X2. injection X2 as <-.
  exists r'. split; [exact X3|]. split; [exists r1; now split|].
  assert (F : Forall2 (fun n m => r_writable n = true -> exists p q r, read_node T P (r_node n) = Ok p /\ transpose t p = Ok q /\
     read_node T P (r_node m) = Ok r /\ peq r (lower_octave (tr_octave t) q)) l l2).
  { eapply map_notes_forall2; [|exact ML]. intros a b E. apply (transpose_pitch_spec _ _ _ _ _ _ OK) in E. apply E. }
  revert WL. clear ML TP. induction F as [|n m0 l l2 Hn F IH]; intros WL; constructor; inversion WL as [|? ? Wn WL']; subst.
  - destruct (Hn Wn) as (p & q & s & Y1 & Y2 & Y3 & Y4). exists p, s. split; [exact Y1|]. split; [exact Y3|].
    change (fixed_pitch r p) with (shift (octave r + 1) p). unfold transposed. rewrite transpose_shift, Y2. cbn [res_shift].
    eexists. split; [reflexivity|]. destruct Y4 as (E1 & E2 & E3). unfold lower_octave, with_octave in E1, E2, E3. cbn [octave note alter] in E1, E2, E3.
    destruct X4 as (D1 & _ & _). repeat split; cbn [fixed_pitch shift octave note alter]; [lia|exact E2|exact E3].
  - now apply IH.
Qed.
Print Assumptions C27_fixed_music_partial.

(** If only the notes are transposed, not the reference pitch, all is right. *)
Theorem C27_fixed_music_unchanged_reference : forall T P t ref l ref' l' r,
  tables_ok T -> r_writable ref = false -> all_writable l ->
  transpose_fixed T P t ref l = Ok (ref', l') -> read_node T P (r_node ref) = Ok r ->
  ref' = ref /\
  Forall2 (fun n n' => exists p p', read_node T P (r_node n) = Ok p /\ read_node T P (r_node n') = Ok p' /\
      transposed t (fixed_pitch r p) (fixed_pitch r p')) l l'.
Proof.
  intros T P t ref l ref' l' r OK W WL H R. unfold transpose_fixed in H. rewrite W in H.
  destruct (map_notes _ l) as [l2|] eqn:ML; [|discriminate]. cbn [bindr] in H. injection H as <- <-. split; [reflexivity|].
  assert (F : Forall2 (fun n m => r_writable n = true -> exists p q r, read_node T P (r_node n) = Ok p /\ transpose t p = Ok q /\
     read_node T P (r_node m) = Ok r /\ peq r (lower_octave 0 q)) l l2).
  { eapply map_notes_forall2; [|exact ML]. intros a b E. apply (transpose_pitch_spec _ _ _ _ _ _ OK) in E. apply E. }
  revert WL. clear ML. induction F as [|n m0 l l2 Hn F IH]; intros WL; constructor; inversion WL as [|? ? Wn WL']; subst.
  - destruct (Hn Wn) as (p & q & s & Y1 & Y2 & Y3 & Y4). exists p, s. split; [exact Y1|]. split; [exact Y3|].
    change (fixed_pitch r p) with (shift (octave r + 1) p). unfold transposed. rewrite transpose_shift, Y2. cbn [res_shift].
    eexists. split; [reflexivity|]. destruct Y4 as (E1 & E2 & E3). unfold lower_octave, with_octave in E1, E2, E3. cbn [octave note alter] in E1, E2, E3.
    repeat split; cbn [fixed_pitch shift octave note alter]; [lia|exact E2|exact E3].
  - now apply IH.
Qed.
Print Assumptions C27_fixed_music_unchanged_reference.

Example C27_witness : (* \fixed c' { c e' } up from c to e' *)
  let t := major_transposer c0 (Pitch 0 2 0) in
  (exists r1, transpose t c1 = Ok r1 /\ octave r1 = octave c1 + tr_octave t) /\
  transpose_fixed ex_tables default_processor t (ex_note "c" 1) [ex_note "c" 0; ex_note "f" 1]
   = Ok (RNote (PNode (txt "e") (Some 2) None) true, [ex_note "e" 0; ex_note "a" 1]).
Proof. split; [eexists; split; [vm_compute; reflexivity|reflexivity]|vm_compute; reflexivity]. Qed.

(** \fixed b { c } from c to d gives \fixed cis' { d }, in which the note is
    an octave higher than it should be. *)
Theorem C27_fixed_music_refuted :
  let t := major_transposer c0 d0 in let ref := ex_note "b" 0 in let ref' := RNote (PNode (txt "cis") (Some 1) None) true in
  transpose_fixed ex_tables default_processor t ref [ex_note "c" 0] = Ok (ref', [ex_note "d" 0]) /\
  exists r r' p p' q, read_node ex_tables default_processor (r_node ref) = Ok r /\
    read_node ex_tables default_processor (r_node ref') = Ok r' /\
    read_node ex_tables default_processor (r_node (ex_note "c" 0)) = Ok p /\
    read_node ex_tables default_processor (r_node (ex_note "d" 0)) = Ok p' /\
    transpose t (fixed_pitch r p) = Ok q /\ octave (fixed_pitch r' p') = octave q + 1.
Proof.
  split; [vm_compute; reflexivity|]. do 5 eexists. split; [vm_compute; reflexivity|]. split; [vm_compute; reflexivity|].
  split; [vm_compute; reflexivity|]. split; [vm_compute; reflexivity|]. split; [vm_compute; reflexivity|reflexivity].
Qed.
Print Assumptions C27_fixed_music_refuted.

(** ** C28: octave-less and intervallic contexts *)

Theorem C28_octave_kept : forall T P t l l', tables_ok T -> all_writable l ->
  transpose_no_octave T P t l = Ok l' ->
  Forall2 (fun n n' => exists p q p', read_node T P (r_node n) = Ok p /\ transpose t p = Ok q /\
     read_node T P (r_node n') = Ok p' /\
     octave p' = octave p /\ note p' = note q /\ (alter p' == alter q)%Q) l l'.
Proof.
  intros T P t l l' OK WL H. unfold transpose_no_octave in H.
  assert (F : Forall2 (fun n m => r_writable n = true -> exists p q p', read_node T P (r_node n) = Ok p /\ transpose t p = Ok q /\
     read_node T P (r_node m) = Ok p' /\ octave p' = octave p /\ note p' = note q /\ (alter p' == alter q)%Q) l l').
  { eapply map_notes_forall2; [|exact H]. intros n m E W. cbv beta in E.
    destruct (of_pair _) as [m0|] eqn:X; [|discriminate]. cbn [bindr] in E. injection E as <-.
    apply process_ok in X; [|exact OK]. destruct X as (p & q & X1 & X2 & X3). rewrite W in X3.
    destruct (transpose t p) as [q0|] eqn:TQ; [|discriminate]. cbn [bindr] in X2. injection X2 as <-.
    destruct X3 as (r & R & (E1 & E2 & E3)). exists p, q0, r. unfold with_octave in E1, E2, E3. cbn [octave note alter] in E1, E2, E3.
    split; [exact X1|]. split; [exact TQ|]. split; [exact R|]. split; [exact E1|]. split; [exact E2|exact E3]. }
  revert WL. clear H. induction F; intros WL; constructor; inversion WL; subst; auto.
Qed.
Print Assumptions C28_octave_kept.

Theorem C28_transpose_interval : forall T P t s a b l', tables_ok T -> tr_scale t = Some s ->
  r_writable a = true -> r_writable b = true ->
  transpose_transpose T P t [a; b] = Ok l' ->
  exists a' b' pa pb pa' pb', l' = [a'; b'] /\
    read_node T P (r_node a) = Ok pa /\ read_node T P (r_node b) = Ok pb /\
    read_node T P (r_node a') = Ok pa' /\ read_node T P (r_node b') = Ok pb' /\
    (height s pb' - height s pa' == height s pb - height s pa)%Q.
Proof.
  intros T P t s a b l' OK TS WA WB H. unfold transpose_transpose in H. cbn [map_notes] in H.
  destruct (transpose_pitch T P t _ a) as [a'|] eqn:TA; [|discriminate]. cbn [bindr] in H.
  destruct (transpose_pitch T P t _ b) as [b'|] eqn:TB; [|discriminate]. cbn [bindr] in H. injection H as <-.
  destruct (transpose_pitch_spec _ _ _ _ _ _ OK TA) as (_ & _ & XA). destruct (XA WA) as (pa & qa & pa' & A1 & A2 & A3 & A4).
  destruct (transpose_pitch_spec _ _ _ _ _ _ OK TB) as (_ & _ & XB). destruct (XB WB) as (pb & qb & pb' & B1 & B2 & B3 & B4).
  exists a', b', pa, pb, pa', pb'. split; [reflexivity|]. split; [exact A1|]. split; [exact B1|]. split; [exact A3|]. split; [exact B3|].
  pose proof (transpose_height t s _ _ TS A2) as HA. pose proof (transpose_height t s _ _ TS B2) as HB.
  assert (L : forall p q, peq p (lower_octave (tr_octave t) q) -> (height s p == height s q - inject_Z (6 * tr_octave t))%Q).
  { intros p q (E1 & E2 & E3). unfold lower_octave, with_octave in E1, E2, E3. cbn [octave note alter] in E1, E2, E3.
    unfold height. rewrite E1, E2, E3. replace (6 * (octave q - tr_octave t)) with (6 * octave q + - (6 * tr_octave t)) by lia.
    rewrite inject_Z_plus, inject_Z_opp. ring. }
  rewrite (L _ _ A4), (L _ _ B4), HA, HB. ring.
Qed.
Print Assumptions C28_transpose_interval.

Example C28_witness :
  transpose_no_octave ex_tables default_processor (major_transposer c0 (Pitch 0 1 0)) [ex_note "b" 0] = Ok [ex_note "cis" 0] /\
  transpose_transpose ex_tables default_processor (major_transposer c0 (Pitch 0 1 0)) [ex_note "c" 0; ex_note "e" 0]
   = Ok [ex_note "d" 0; ex_note "fis" 0].
Proof. split; vm_compute; reflexivity. Qed.

(** ** C68: only the selected notes are edited *)

Theorem C68_absolute_selected : forall T P t l l', tables_ok T -> transpose_absolute T P t l = Ok l' ->
  Forall2 (fun n n' =>
    if r_writable n then exists p p', read_node T P (r_node n) = Ok p /\ read_node T P (r_node n') = Ok p' /\ transposed t p p'
    else n' = n) l l'.
Proof.
  intros T P t l l' OK H. eapply map_notes_forall2; [|exact H]. intros n m E.
  destruct (transpose_pitch_spec _ _ _ _ _ _ OK E) as (_ & A & B). destruct (r_writable n) eqn:W; [|now apply A].
  destruct (B eq_refl) as (p & q & r & X1 & X2 & X3 & X4). exists p, r. split; [exact X1|]. split; [exact X3|]. exists q. now split.
Qed.
Print Assumptions C68_absolute_selected.

Theorem C68_relative_frame : forall T P t first_absolute start l start' l',
  transpose_relative T P t first_absolute start l = Ok (start', l') ->
  Forall2 (fun n n' => r_writable n = false -> n' = n)
    (opt_list start ++ flat_map event_notes l) (opt_list start' ++ flat_map event_notes l').
Proof.
  intros. eapply Forall2_impl; [|eapply transpose_relative_frame; eassumption]. intros a b F. apply F.
Qed.
Print Assumptions C68_relative_frame.

Example C68_witness :
  transpose_absolute ex_tables default_processor (major_transposer c0 d0) [ex_note "c" 1; RNote (PNode (txt "c") None None) false]
   = Ok [ex_note "d" 1; RNote (PNode (txt "c") None None) false].
Proof. vm_compute. reflexivity. Qed.

(** A contiguous selection in relative music: what precedes it, reads the
    same; what is selected, reads transposed; what follows, is left alone. *)
(** Missing for the full claim: that what follows the selection reads the same, which is false (C68_relative_pitches_refuted). *)
Theorem C68_relative_selection_partial : forall T P t o first_absolute start before sel after start' l',
  tables_ok T -> uniform T P o -> none_writable (opt_list start) ->
  none_writable (flat_map event_notes before) -> all_writable (flat_map event_notes sel) ->
  none_writable (flat_map event_notes after) ->
  transpose_relative T P t first_absolute start (before ++ sel ++ after) = Ok (start', l') ->
  exists sel' ps qs qs', start' = start /\ l' = before ++ sel' ++ after /\
    rel_expression T P first_absolute start (before ++ sel) = Ok (ps ++ qs) /\
    rel_expression T P first_absolute start (before ++ sel') = Ok (ps ++ qs') /\
    rel_expression T P first_absolute start before = Ok ps /\
    Forall2 (fun p p' => transposed t (fst p) (fst p')) qs qs'.
Proof.
  intros T P t o fa start before sel after start' l' OK U W0 W1 W2 W3 H.
  assert (X : forall (Q : rnote -> Prop) l, Forall Q (flat_map event_notes l) -> Forall (fun e => Forall Q (event_notes e)) l).
  { intros Q l. induction l as [|e r IH]; [constructor|]. cbn [flat_map]. rewrite Forall_app. intros [A B]. constructor; auto. }
  eapply relative_selection; try eassumption; now apply X.
Qed.
Print Assumptions C68_relative_selection_partial.

Example C68_selection_witness : (* \relative { a <c> | b g | e }, the b and g up a second *)
  let u a o := RNote (PNode (txt a) o None) false in
  transpose_relative ex_tables default_processor (major_transposer c0 d0) true None
    ([ENote (u "a"%string (Some 1)); EChord [u "c"%string None]] ++ [ENote (ex_note "b" 0); ENote (ex_note "g" 0)] ++ [ENote (u "e"%string None)])
  = Ok (None, [ENote (u "a"%string (Some 1)); EChord [u "c"%string None]] ++ [ENote (ex_note "cis" 0); ENote (ex_note "a" 0)] ++ [ENote (u "e"%string None)]).
Proof. vm_compute. reflexivity. Qed.

(** In relative music the unselected notes after a selected one do change
    their pitch: in \relative c' { c d } with only the c moved up an octave
    the d moves along. *)
Theorem C68_relative_pitches_refuted :
  let s := RNote (PNode (txt "c") (Some 1) None) false in
  let u := RNote (PNode (txt "d") None None) false in
  let t := major_transposer c0 c1 in
  transpose_relative ex_tables default_processor t true (Some s) [ENote (ex_note "c" 0); ENote u]
    = Ok (Some s, [ENote (ex_note "c" 1); ENote u]) /\
  rel_expression ex_tables default_processor true (Some s) [ENote (ex_note "c" 0); ENote u]
    = Ok [(c1, None); (c1, None); (Pitch 0 1 0, None)] /\
  rel_expression ex_tables default_processor true (Some s) [ENote (ex_note "c" 1); ENote u]
    = Ok [(c1, None); (Pitch 1 0 0, None); (Pitch 1 1 0, None)].
Proof. repeat split; vm_compute; reflexivity. Qed.
Print Assumptions C68_relative_pitches_refuted.
