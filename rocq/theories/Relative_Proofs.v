(** Proofs about converting between relative and absolute music. *)
From Coq Require Import String Ascii List ZArith QArith Bool Lia.
From Coq Require Import ZifyBool ZifyNat.
From Verif Require Import Base Pitch_Model Pitch_Spec Pitch_Proofs Pitch_Lang Transpose_Model Transpose_Spec Transpose_Proofs.
From Verif Require Import Relative_Model Relative_Spec.
Import ListNotations.
Open Scope Z_scope.
Ltac Zify.zify_post_hook ::= Z.div_mod_to_equations.

Lemma item_ind2 (Q : item -> Prop) :
  (forall n, Q (INote n)) -> (forall c, Q (IChord c)) -> (forall n, Q (ICheck n)) -> Q IOpaque ->
  (forall s b, Q b -> Q (IRelative s b)) -> (forall l, Forall Q l -> Q (IList l)) -> forall i, Q i.
Proof.
  intros H1 H2 H3 H4 H5 H6. fix F 1. intros [n|c|n| |s b|l];
    [apply H1|apply H2|apply H3|apply H4|apply H5; apply F|apply H6].
  induction l as [|x r IH]; constructor; [apply F|apply IH].
Qed.

Section S.
  Context (T : tables) (P : processor) (fa : bool).

  Fixpoint rel_reads (prev : pitch) (l : list item) : res (list pitch * pitch) :=
    match l with
    | [] => Ok ([], prev)
    | x :: r => let! (ps, p) := rel_read T P fa prev x in
                let! (qs, q) := rel_reads p r in Ok (ps ++ qs, q)
    end.
  Lemma rel_read_list prev l : rel_read T P fa prev (IList l) = rel_reads prev l.
  Proof. revert prev. induction l as [|x r IH]; intros prev; [reflexivity|]. cbn [rel_reads]. rewrite <- IH || idtac.
    cbn [rel_read]. destruct (rel_read T P fa prev x) as [[ps p]|]; cbn [bindr]; [|reflexivity].
    specialize (IH p). cbn [rel_read] in IH. rewrite IH. reflexivity. Qed.

  Fixpoint abs_reads (l : list item) : res (list pitch) :=
    match l with
    | [] => Ok []
    | x :: r => let! ps := abs_read T P fa x in let! qs := abs_reads r in Ok (ps ++ qs)
    end.
  Lemma abs_read_list l : abs_read T P fa (IList l) = abs_reads l.
  Proof. reflexivity. Qed.

  Fixpoint walks (l : list item) (last : pitch) (seen : bool) : res (list item * pitch * bool) :=
    match l with
    | [] => Ok ([], last, seen)
    | ICheck n :: r =>
        let! p := read_node T P n in
        match r with
        | [] => Ok ([], p, true)
        | x :: r => let! x' := settle T P fa x in
                    let! (r', q, sn) := walks r p true in Ok (x' :: r', q, sn)
        end
    | x :: r => let! (x', p, sn) := walk T P fa x last seen in
                let! (r', q, sn) := walks r p sn in Ok (x' :: r', q, sn)
    end.
  Lemma walk_list l last seen : walk T P fa (IList l) last seen = let! (l', q, sn) := walks l last seen in Ok (IList l', q, sn).
  Proof. reflexivity. Qed.

  Lemma write_octave n q k : pitch_of_name T P (head n) = Ok q ->
    process T P n true (fun _ => Ok (Pitch k (note q) (alter q))) =
      (set_node_octave n (k - octave q), Ok (Pitch k (note q) (alter q))).
  Proof.
    intros E. unfold process, read_node. rewrite E. cbn [bindr]. unfold write_node. rewrite E. cbn [note alter octave].
    rewrite Z.eqb_refl. cbn [andb]. replace (Qeq_bool (alter q) (alter q)) with true; [reflexivity|].
    symmetry. apply Qeq_bool_iff. reflexivity.
  Qed.

  Lemma process_ext n f g : (forall p, read_node T P n = Ok p -> f p = g p) -> process T P n true f = process T P n true g.
  Proof. intros H. unfold process. destruct (read_node T P n) as [p|]; [|reflexivity]. now rewrite (H p eq_refl). Qed.

  Lemma absolute_note_spec n prev p c : rel_pitch T P prev n = Ok (p, c) ->
    exists m, absolute_note T P n prev = Ok (m, p) /\ read_node T P m = Ok p /\ bare_note m = bare_note n.
  Proof.
    unfold rel_pitch. destruct (pitch_of_name T P (head n)) as [q|] eqn:E; [|discriminate]. cbn [bindr]. intros [= <- <-].
    exists (set_node_octave n (nearest prev (note q) + node_octave n - octave q)). unfold absolute_note.
    rewrite (process_ext n _ (fun _ => Ok (Pitch (nearest prev (note q) + node_octave n) (note q) (alter q)))).
    2:{ intros p R. unfold read_node in R. rewrite E in R. cbn [bindr] in R. injection R as <-.
        unfold make_absolute. cbn [octave note alter]. rewrite nearest_eq. f_equal. f_equal. lia. }
    rewrite (write_octave _ _ _ E). cbn [bindr]. split; [reflexivity|]. split.
    - unfold read_node. rewrite head_set, E. cbn [bindr]. rewrite node_octave_set. f_equal. f_equal. lia.
    - unfold bare_note. now rewrite head_set, check_set.
  Qed.

  Lemma absolute_chord_spec c : forall prev ps, rel_list T P prev c = Ok ps ->
    exists c', absolute_chord T P c prev = Ok (c', ps) /\ abs_list T P c' = Ok ps /\ map bare_note c' = map bare_note c.
  Proof.
    induction c as [|n r IH]; intros prev ps; cbn [rel_list absolute_chord].
    - intros [= <-]. exists []. now repeat split.
    - destruct (rel_pitch T P prev n) as [[p k]|] eqn:R; [|discriminate]. cbn [bindr].
      destruct (rel_list T P p r) as [qs|] eqn:RL; [|discriminate]. cbn [bindr]. intros [= <-].
      destruct (absolute_note_spec _ _ _ _ R) as (m & A & B & C). destruct (IH _ _ RL) as (r' & A' & B' & C').
      exists (m :: r'). rewrite A. cbn [bindr]. rewrite A'. cbn [bindr abs_list map]. rewrite B. cbn [bindr]. rewrite B'.
      cbn [bindr]. now rewrite C, C'.
  Qed.

  Lemma walk_spec i : no_relative i = true -> checks_last i = true ->
    forall prev seen ps q, rel_read T P fa prev i = Ok (ps, q) ->
    exists i' seen', walk T P fa i prev seen = Ok (i', q, seen') /\ abs_read T P fa i' = Ok ps /\
      bare i' = bare (drop_checks i) /\ seen' = seen || meets_note i.
  Proof.
    induction i as [n|c|n| |s b _|l IH] using item_ind2; intros NR CL prev seen ps q.
    - cbn [rel_read]. destruct (rel_pitch T P prev n) as [[p k]|] eqn:R; [|discriminate]. cbn [bindr]. intros [= <- <-].
      destruct (absolute_note_spec _ _ _ _ R) as (m & A & B & C). exists (INote m), true.
      cbn [walk]. rewrite A. cbn [bindr abs_read]. rewrite B. cbn [bindr bare drop_checks meets_note]. rewrite C, orb_true_r. auto.
    - cbn [rel_read]. destruct (rel_list T P prev c) as [qs|] eqn:R; [|discriminate]. cbn [bindr]. intros [= <- <-].
      destruct (absolute_chord_spec _ _ _ R) as (c' & A & B & C). exists (IChord c'), (seen || match c with [] => false | _ => true end).
      cbn [walk]. rewrite A. cbn [bindr abs_read bare drop_checks meets_note]. rewrite C. auto.
    - cbn [rel_read]. destruct (read_node T P n) as [p|] eqn:R; [|discriminate]. cbn [bindr]. intros [= <- <-].
      exists (ICheck n), true. cbn [walk]. rewrite R. cbn [bindr abs_read bare drop_checks meets_note]. rewrite orb_true_r. auto.
    - cbn [rel_read]. intros [= <- <-]. exists IOpaque, seen. cbn. rewrite orb_false_r. auto.
    - discriminate.
    - assert (X : forall prev seen ps q, rel_reads prev l = Ok (ps, q) ->
        exists l' seen', walks l prev seen = Ok (l', q, seen') /\ abs_reads l' = Ok ps /\
          map bare l' = map bare (filter (fun x => negb (is_check x)) (map drop_checks l)) /\ seen' = seen || existsb meets_note l).
      { clear prev seen ps q. unfold no_relative in NR. unfold checks_last in CL. cbn [every] in NR, CL.
        apply andb_prop in NR as [_ NR]. apply andb_prop in CL as [CL0 CL]. cbn [check_last] in CL0.
        apply negb_true_iff in CL0. revert CL0.
        induction l as [|x r IHr]; intros CL0 prev seen ps q.
        - cbn [rel_reads]. intros [= <- <-]. exists [], seen. cbn. rewrite orb_false_r. auto.
        - apply Forall_cons_iff in IH as [IHx IHl]. cbn [forallb] in NR, CL.
          apply andb_prop in NR as [NRx NR]. apply andb_prop in CL as [CLx CL].
          assert (C0' : existsb is_check (removelast r) = false).
          { destruct r as [|y r]; [reflexivity|]. cbn [removelast existsb] in CL0. apply orb_false_iff in CL0. apply CL0. }
          specialize (IHr IHl NR CL C0').
          destruct (is_check x) eqn:CX.
          + destruct r as [|y r].
            2:{ cbn [removelast existsb] in CL0. rewrite CX in CL0. discriminate. }
            destruct x as [n|c|n| |s b|k]; try discriminate. cbn [rel_reads rel_read walks].
            destruct (read_node T P n) as [p|] eqn:R; [|discriminate]. cbn [bindr]. intros [= <- <-].
            exists [], true. cbn. rewrite orb_true_r. auto.
          + cbn [rel_reads]. destruct (rel_read T P fa prev x) as [[ps1 p1]|] eqn:RX; [|discriminate]. cbn [bindr].
            destruct (rel_reads p1 r) as [[ps2 p2]|] eqn:RR; [|discriminate]. cbn [bindr]. intros [= <- <-].
            destruct (IHx NRx CLx _ seen _ _ RX) as (x' & s1 & W & A & B & S1).
            destruct (IHr _ s1 _ _ RR) as (r' & s2 & W' & A' & B' & S2).
            exists (x' :: r'), s2.
            assert (E : walks (x :: r) prev seen = let! (x', p, sn) := walk T P fa x prev seen in
                let! (r', q, sn) := walks r p sn in Ok (x' :: r', q, sn)) by (destruct x; try discriminate; reflexivity).
            rewrite E, W. cbn [bindr]. rewrite W'. cbn [bindr abs_reads]. rewrite A. cbn [bindr]. rewrite A'. cbn [bindr].
            split; [reflexivity|]. split; [reflexivity|]. split.
            * cbn [map filter]. replace (is_check (drop_checks x)) with (is_check x) by (destruct x; reflexivity).
              rewrite CX. cbn [negb map]. now rewrite B, B'.
            * subst s2 s1. cbn [existsb]. now rewrite orb_assoc. }
      intros RL. rewrite rel_read_list in RL. destruct (X _ seen _ _ RL) as (l' & s' & W & A & B & S').
      exists (IList l'), s'. rewrite walk_list, W. cbn [bindr]. rewrite abs_read_list. cbn [bare drop_checks meets_note]. rewrite B. auto.
  Qed.

  Lemma walk_early i : checks_last i = true ->
    forall seen seen', early seen i seen' -> forall prev ps q, rel_read T P fa prev i = Ok (ps, q) ->
    exists i', walk T P fa i prev seen = Ok (i', q, seen') /\ abs_read T P fa i' = Ok ps /\ bare i' = bare (no_relatives_left i).
  Proof.
    induction i as [n|c|n| |s b IHb|l IH] using item_ind2; intros CL seen seen' E prev ps q.
    - inversion E; subst. cbn [rel_read]. destruct (rel_pitch T P prev n) as [[p k]|] eqn:R; [|discriminate]. cbn [bindr]. intros [= <- <-].
      destruct (absolute_note_spec _ _ _ _ R) as (m & A & B & C). exists (INote m).
      cbn [walk]. rewrite A. cbn [bindr abs_read]. rewrite B. cbn [bindr bare no_relatives_left]. rewrite C. auto.
    - cbn [rel_read]. destruct (rel_list T P prev c) as [qs|] eqn:R; [|discriminate]. cbn [bindr]. intros [= <- <-].
      destruct (absolute_chord_spec _ _ _ R) as (c' & A & B & C). exists (IChord c').
      cbn [walk]. rewrite A. cbn [bindr abs_read bare no_relatives_left]. rewrite C. inversion E; subst; rewrite ?orb_true_r, ?orb_false_r; auto.
    - inversion E; subst. cbn [rel_read]. destruct (read_node T P n) as [p|] eqn:R; [|discriminate]. cbn [bindr]. intros [= <- <-].
      exists (ICheck n). cbn [walk]. rewrite R. cbn [bindr abs_read bare no_relatives_left]. auto.
    - inversion E; subst. cbn [rel_read]. intros [= <- <-]. exists IOpaque. cbn. auto.
    - inversion E; subst. cbn [rel_read walk]. change (start_pitch T P fa s) with (rel_start T P fa s). destruct (rel_start T P fa s) as [p|]; [|discriminate]. cbn [bindr].
      destruct (rel_read T P fa p b) as [(ps0, q0)|] eqn:R; [|discriminate]. cbn [bindr]. intros [= <- <-].
      unfold checks_last in CL. cbn [every check_last andb] in CL. destruct (IHb CL false seen' ltac:(assumption) p ps0 q0 R) as (b' & W & A & B).
      exists b'. rewrite W. cbn [bindr no_relatives_left]. auto.
    - inversion E; subst. assert (X : forall seen seen', earlys seen l seen' -> forall prev ps q, rel_reads prev l = Ok (ps, q) ->
        exists l', walks l prev seen = Ok (l', q, seen') /\ abs_reads l' = Ok ps /\
          map bare l' = map bare (flat_map (fun x => if is_check x then [] else [no_relatives_left x]) l)).
      { match goal with H : earlys _ l _ |- _ => clear H end. clear E seen seen' prev ps q. unfold checks_last in CL. cbn [every] in CL. apply andb_prop in CL as [CL0 CL]. cbn [check_last] in CL0.
        apply negb_true_iff in CL0. revert CL0.
        induction l as [|x r IHr]; intros CL0 seen seen' E prev ps q; inversion E; subst.
        - cbn [rel_reads]. intros [= <- <-]. exists []. cbn. auto.
        - apply Forall_cons_iff in IH as [IHx IHl]. cbn [forallb] in CL. apply andb_prop in CL as [CLx CL].
          assert (C0' : existsb is_check (removelast r) = false).
          { destruct r as [|y r]; [reflexivity|]. cbn [removelast existsb] in CL0. apply orb_false_iff in CL0. apply CL0. }
          specialize (IHr IHl CL C0').
          destruct (is_check x) eqn:CX.
          + destruct r as [|y r].
            2:{ cbn [removelast existsb] in CL0. rewrite CX in CL0. discriminate. }
            destruct x as [n|c|n| |s b|k]; try discriminate. cbn [rel_reads rel_read walks].
            destruct (read_node T P n) as [p|] eqn:R; [|discriminate]. cbn [bindr]. intros [= <- <-].
            exists []. cbn. match goal with H : early _ (ICheck n) _ |- _ => inversion H; subst end. match goal with H : earlys _ [] _ |- _ => inversion H; subst end. auto.
          + cbn [rel_reads]. destruct (rel_read T P fa prev x) as [[ps1 p1]|] eqn:RX; [|discriminate]. cbn [bindr].
            destruct (rel_reads p1 r) as [[ps2 p2]|] eqn:RR; [|discriminate]. cbn [bindr]. intros [= <- <-].
            destruct (IHx CLx seen m ltac:(assumption) _ _ _ RX) as (x' & W & A & B).
            destruct (IHr m seen' ltac:(assumption) _ _ _ RR) as (r' & W' & A' & B').
            exists (x' :: r').
            assert (EQ : walks (x :: r) prev seen = let! (x', p, sn) := walk T P fa x prev seen in
                let! (r', q, sn) := walks r p sn in Ok (x' :: r', q, sn)) by (destruct x; try discriminate; reflexivity).
            rewrite EQ, W. cbn [bindr]. rewrite W'. cbn [bindr abs_reads]. rewrite A. cbn [bindr]. rewrite A'. cbn [bindr].
            split; [reflexivity|]. split; [reflexivity|].
            cbn [map flat_map]. rewrite CX. cbn [app map]. now rewrite B, B'. }
      intros RL. rewrite rel_read_list in RL. destruct (X _ _ ltac:(eassumption) _ _ _ RL) as (l' & W & A & B).
      exists (IList l'). rewrite walk_list, W. cbn [bindr]. rewrite abs_read_list. cbn [bare no_relatives_left]. rewrite B. auto.
  Qed.

  Lemma convert_eq s b : convert T P fa s b = let! p := start_pitch T P fa s in
    let! (b', _, _) := walk T P fa b p false in Ok b'.
  Proof. reflexivity. Qed.

  Lemma convert_spec s b ps : no_relative b = true -> checks_last b = true ->
    entry_read T P fa (DRel true s b) = Ok ps ->
    exists b', convert T P fa s b = Ok b' /\ abs_read T P fa b' = Ok ps /\ bare b' = bare (drop_checks b).
  Proof.
    intros NR CL. cbn [entry_read]. rewrite convert_eq.
    change (start_pitch T P fa s) with (rel_start T P fa s).
    destruct (rel_start T P fa s) as [p|]; [|discriminate]. cbn [bindr].
    destruct (rel_read T P fa p b) as [[qs q]|] eqn:R; [|discriminate]. cbn [bindr]. intros [= <-].
    destruct (walk_spec b NR CL _ false _ _ R) as (b' & sn & W & A & B & _). exists b'. rewrite W. cbn [bindr]. auto.
  Qed.
End S.

Lemma existsb_forallb {A} (f : A -> bool) l : forallb (fun x => negb (f x)) l = true -> existsb f l = false.
Proof. induction l as [|x r IH]; [reflexivity|]. cbn. rewrite andb_true_iff, negb_true_iff. intros [-> H]. now apply IH. Qed.

Lemma no_check_last i : no_check i = true -> checks_last i = true.
Proof.
  unfold no_check, checks_last. induction i as [n|c|n| |s b IH|l IH] using item_ind2; cbn [every]; try reflexivity.
  - cbn. exact IH.
  - cbn [is_check negb andb check_last]. intros H. apply andb_true_intro. split.
    + apply negb_true_iff, not_true_iff_false. intros E. apply existsb_exists in E as (x & I & C).
      assert (In x l). { clear -I. induction l as [|y r IHr]; [destruct I|]. destruct r as [|z r]; [destruct I|]. cbn [removelast] in I. destruct I as [->|I]; [now left|right; now apply IHr]. }
      rewrite forallb_forall in H. specialize (H x H0). destruct x; cbn in *; discriminate.
    + rewrite forallb_forall in H |- *. intros x I. rewrite Forall_forall in IH. apply IH; auto.
Qed.

(** Absolute to relative. *)
Section R.
  Context (T : tables) (P : processor) (fa ws : bool) (OK : tables_ok T).

  Fixpoint relatives (l : list item) (last : option pitch) (new : option pnode) : res (list item * option pitch * option pnode) :=
    match l with
    | [] => Ok ([], last, new)
    | x :: r => let! (x', last, new) := relative_notes T P fa ws x last new in
                let! (r', last, new) := relatives r last new in Ok (x' :: r', last, new)
    end.
  Lemma relative_notes_list l last new : relative_notes T P fa ws (IList l) last new =
    let! (l', last, new) := relatives l last new in Ok (IList l', last, new).
  Proof. reflexivity. Qed.

  (** The reference before the next note: the last one, or that of the start. *)
  Definition reference (last : option pitch) (new : option pnode) : res pitch :=
    match last with Some p => Ok p | None => rel_start T P fa new end.

  (** The language has a name for the natural c. *)
  Definition can_start : Prop := ws = true -> exists t name o, lang_table T (language P) = Ok t /\ names_pitch t name o 0 0.

  Lemma relative_step n q p prev : pitch_of_name T P (head n) = Ok q -> read_node T P n = Ok p ->
    exists m, process T P n true (fun p' => Ok (make_relative 7 p' prev (octave p - node_octave n))) = (m, Ok (make_relative 7 p prev (octave p - node_octave n))) /\
      rel_pitch T P prev m = Ok (p, match oct_check n with Some c => Some (octave q + c) | None => None end) /\ bare_note m = bare_note n /\
      node_octave m = octave p - nearest prev (note p).
  Proof.
    intros E R. pose proof R as R0. unfold read_node in R0. rewrite E in R0. cbn [bindr] in R0. injection R0 as <-.
    set (p := Pitch (octave q + node_octave n) (note q) (alter q)) in *.
    set (k := octave (make_relative 7 p prev (octave p - node_octave n))).
    exists (set_node_octave n (k - octave q)).
    rewrite (process_ext T P n _ (fun _ => Ok (Pitch k (note q) (alter q)))) by (intros p' R'; assert (p' = p) by congruence; subst p'; reflexivity).
    rewrite (write_octave T P n q k E). split; [reflexivity|].
    assert (NO : k - octave q = octave p - nearest prev (note p)).
    { unfold k, make_relative, p. cbn [octave note]. rewrite nearest_eq. lia. }
    split; [|split].
    - unfold rel_pitch. rewrite head_set, E. cbn [bindr]. rewrite node_octave_set, check_set. f_equal. f_equal. unfold p. f_equal.
      rewrite NO. unfold p. cbn [octave note]. lia.
    - unfold bare_note. now rewrite head_set, check_set.
    - now rewrite node_octave_set.
  Qed.

  Lemma first_pitch_spec p : can_start -> exists q new start, first_pitch T P fa ws p = Ok (q, new) /\
    rel_start T P fa new = Ok start /\ octave start = octave q /\ note start = note q /\
    (ws = true -> new <> None /\ note q = 0 /\ (0 <= note p <= 6 -> octave p = nearest q (note p))).
  Proof.
    unfold can_start, first_pitch. destruct ws; intros CS.
    - destruct (CS eq_refl) as (t & nm & o & TL & NP).
      set (q := Pitch (if 3 <? note p then octave p + 1 else octave p) 0 0).
      destruct (name_octave_complete T P q t TL (ex_intro _ nm (ex_intro _ o NP))) as (name & k & N).
      rewrite N. cbn [bindr]. destruct (name_octave_sound _ _ _ _ _ N) as (t' & ot & TL' & (a' & I & EA) & EO & _).
      exists q, (Some (set_node_octave (PNode name None None) k)), (Pitch (ot + k) 0 a').
      split; [reflexivity|]. split.
      + cbn [rel_start]. unfold read_node. rewrite head_set. cbn [head]. unfold pitch_of_name. rewrite TL'. cbn [bindr].
        rewrite (dget_str_unique _ _ _ (lang_table_ok _ _ _ OK TL') I). cbn [bindr octave note alter].
        rewrite node_octave_set. reflexivity.
      + cbn [octave note]. split; [exact EO|]. split; [reflexivity|]. intros _. split; [discriminate|]. split; [reflexivity|].
        unfold q, nearest, staff. cbn [octave note]. destruct (Z.ltb_spec 3 (note p)); lia.
    - do 3 eexists. split; [reflexivity|]. split; [reflexivity|]. split; [reflexivity|]. split; [reflexivity|discriminate].
  Qed.

  Lemma relative_note_spec n last new p : can_start -> read_node T P n = Ok p ->
    exists m new' start c, relative_note T P fa ws n last new = Ok (m, p, new') /\ bare_note m = bare_note n /\ reference last new' = Ok start /\ rel_pitch T P start m = Ok (p, c) /\ match last with Some _ => new' = new
      | None => ws = true -> new' <> None /\ (0 <= note p <= 6 -> node_octave m = 0) end.
  Proof.
    intros CS R. destruct (read_node_name _ _ _ _ R) as (q & E & _). unfold relative_note. rewrite R. cbn [bindr].
    destruct last as [prev|].
    - cbn [bindr]. destruct (relative_step n q p prev E R) as (m & A & B & C & D). rewrite A. cbn [bindr].
      exists m, new, prev, (match oct_check n with Some c => Some (octave q + c) | None => None end). auto.
    - destruct (first_pitch_spec p CS) as (q0 & new' & start & F & S & O & N & W). rewrite F. cbn [bindr].
      destruct (relative_step n q p q0 E R) as (m & A & B & C & D). rewrite A. cbn [bindr].
      exists m, new', start, (match oct_check n with Some c => Some (octave q + c) | None => None end).
      split; [reflexivity|]. split; [exact C|]. split; [exact S|]. split.
      + rewrite <- B. unfold rel_pitch. destruct (pitch_of_name T P (head m)); [|reflexivity]. cbn [bindr].
        unfold nearest, staff. rewrite O, N. reflexivity.
      + intros WS. destruct (W WS) as (W1 & W2 & W3). split; [exact W1|]. intros V. rewrite D, <- W3 by exact V. lia.
  Qed.

  Lemma relative_notes_spec i : can_start -> no_relative i = true -> no_check i = true -> no_chord i = true ->
    forall last new ps, abs_read T P fa i = Ok ps ->
    exists i' last' new', relative_notes T P fa ws i last new = Ok (i', last', new') /\ bare i' = bare i /\
      no_relative i' = true /\ no_check i' = true /\
      match last with
      | Some prev => new' = new /\ exists q, last' = Some q /\ rel_read T P fa prev i' = Ok (ps, q)
      | None => (ps = [] /\ last' = None /\ new' = new /\ forall prev, rel_read T P fa prev i' = Ok ([], prev)) \/
          (exists start q, last' = Some q /\ rel_start T P fa new' = Ok start /\ rel_read T P fa start i' = Ok (ps, q) /\ (ws = true -> new' <> None))
      end.
  Proof.
    intros CS. induction i as [n|c|n| |s b _|l IH] using item_ind2; intros NR NC NH last new ps; try discriminate.
    - cbn [abs_read relative_notes]. destruct (read_node T P n) as [p|] eqn:R; [|discriminate]. cbn [bindr]. intros [= <-].
      destruct (relative_note_spec n last new p CS R) as (m & new' & start & c & A & B & C & D & E).
      exists (INote m), (Some p), new'. rewrite A. cbn [bindr bare rel_read]. rewrite B.
      split; [reflexivity|]. split; [reflexivity|]. split; [reflexivity|]. split; [reflexivity|].
      destruct last as [prev|].
      + split; [exact E|]. exists p. split; [reflexivity|]. cbn [reference] in C. injection C as ->. rewrite D. reflexivity.
      + right. exists start, p. split; [reflexivity|]. split; [exact C|]. rewrite D. split; [reflexivity|]. intros WS. now apply E.
    - destruct c; [|discriminate]. cbn. intros [= <-]. exists (IChord []), last, new. repeat (split; [reflexivity|]).
      destruct last as [prev|].
      + split; [reflexivity|]. exists prev. now split.
      + left. auto.
    - cbn. intros [= <-]. exists IOpaque, last, new. repeat (split; [reflexivity|]).
      destruct last as [prev|].
      + split; [reflexivity|]. exists prev. now split.
      + left. auto.
    - rewrite abs_read_list. intros AR. rewrite relative_notes_list.
      assert (X : exists l' last' new', relatives l last new = Ok (l', last', new') /\ map bare l' = map bare l /\
         forallb no_relative l' = true /\ forallb no_check l' = true /\
         match last with
         | Some prev => new' = new /\ exists q, last' = Some q /\ rel_reads T P fa prev l' = Ok (ps, q)
         | None => (ps = [] /\ last' = None /\ new' = new /\ forall prev, rel_reads T P fa prev l' = Ok ([], prev)) \/
             (exists start q, last' = Some q /\ rel_start T P fa new' = Ok start /\ rel_reads T P fa start l' = Ok (ps, q) /\ (ws = true -> new' <> None))
         end).
      { unfold no_relative in NR. unfold no_check in NC. unfold no_chord in NH. cbn [every] in NR, NC, NH.
        apply andb_prop in NR as [_ NR]. apply andb_prop in NC as [_ NC]. apply andb_prop in NH as [_ NH].
        revert last new ps AR. induction l as [|x r IHr]; intros last new ps.
        - cbn [abs_reads relatives]. intros [= <-]. exists [], last, new. repeat (split; [reflexivity|]). destruct last as [prev|].
          + split; [reflexivity|]. exists prev. now split.
          + left. auto.
        - apply Forall_cons_iff in IH as [IHx IHl]. cbn [forallb] in NR, NC, NH.
          apply andb_prop in NR as [NRx NR]. apply andb_prop in NC as [NCx NC]. apply andb_prop in NH as [NHx NH].
          specialize (IHr IHl NR NC NH). cbn [abs_reads relatives].
          destruct (abs_read T P fa x) as [ps1|] eqn:AX; [|discriminate]. cbn [bindr].
          destruct (abs_reads T P fa r) as [ps2|] eqn:AR; [|discriminate]. cbn [bindr]. intros [= <-].
          destruct (IHx NRx NCx NHx last new ps1 eq_refl) as (x' & l1 & n1 & E1 & B1 & R1 & K1 & M1).
          rewrite E1. cbn [bindr].
          destruct (IHr l1 n1 ps2 eq_refl) as (r' & l2 & n2 & E2 & B2 & R2 & K2 & M2).
          rewrite E2. cbn [bindr]. exists (x' :: r'), l2, n2. split; [reflexivity|].
          cbn [map forallb]. rewrite B1, B2, R1, R2, K1, K2. repeat (split; [reflexivity|]).
          cbn [rel_reads]. destruct last as [prev|].
          + destruct M1 as (-> & q & -> & Q). destruct M2 as (-> & q2 & -> & Q2).
            split; [reflexivity|]. exists q2. split; [reflexivity|]. rewrite Q. cbn [bindr]. rewrite Q2. reflexivity.
          + destruct M1 as [(-> & -> & -> & Q)|(start & q & -> & S & Q & W)].
            * destruct M2 as [(-> & -> & -> & Q2)|(start & q & -> & S & Q2 & W)].
              -- left. split; [reflexivity|]. split; [reflexivity|]. split; [reflexivity|]. intros prev. rewrite Q. cbn [bindr]. now rewrite Q2.
              -- right. exists start, q. split; [reflexivity|]. split; [exact S|]. rewrite Q. cbn [bindr]. rewrite Q2. auto.
            * destruct M2 as (-> & q2 & -> & Q2). right. exists start, q2. split; [reflexivity|]. split; [exact S|].
              rewrite Q. cbn [bindr]. rewrite Q2. auto. }
      destruct X as (l' & last' & new' & E & B & R & K & M). exists (IList l'), last', new'. rewrite E. cbn [bindr bare].
      split; [reflexivity|]. split; [now rewrite B|]. split; [exact R|]. split; [exact K|].
      destruct last as [prev|].
      + destruct M as (-> & q & -> & M). split; [reflexivity|]. exists q. split; [reflexivity|]. now rewrite rel_read_list.
      + destruct M as [(-> & -> & -> & Q)|(start & q & -> & S & Q & W)].
        * left. repeat (split; [reflexivity|]). intros prev. now rewrite rel_read_list.
        * right. exists start, q. repeat (split; [first [reflexivity|exact S]|]). now rewrite rel_read_list.
  Qed.

  Lemma make_relative_spec b ps : can_start -> no_relative b = true -> no_check b = true -> no_chord b = true ->
    abs_read T P fa b = Ok ps ->
    exists s b', make_relative_music T P fa ws b = Ok (s, b') /\ entry_read T P fa (DRel true s b') = Ok ps /\
      bare b' = bare b /\ no_relative b' = true /\ no_check b' = true /\ (ws = true -> ps <> [] -> s <> None).
  Proof.
    intros CS NR NC NH A. destruct (relative_notes_spec b CS NR NC NH None None ps A) as (b' & l' & s & E & B & R & K & M).
    exists s, b'. unfold make_relative_music. rewrite E. cbn [bindr entry_read]. split; [reflexivity|].
    destruct M as [(-> & -> & -> & Q)|(start & q & -> & S & Q & W)].
    - cbn [rel_start bindr]. rewrite Q. cbn [bindr]. repeat (split; [assumption || reflexivity|]). intros _ H. now elim H.
    - rewrite S. cbn [bindr]. rewrite Q. cbn [bindr]. repeat (split; [assumption || reflexivity|]). auto.
  Qed.
End R.

(** The notes and the pitches determine the octaves. *)
Section Same.
  Context (T : tables) (P : processor) (fa : bool).

  Lemma note_same n m p : bare_note n = bare_note m -> read_node T P n = Ok p -> read_node T P m = Ok p -> zero_note n = zero_note m.
  Proof.
    intros B R S. injection B as H C. destruct (read_node_name _ _ _ _ R) as (q & E & E1).
    destruct (read_node_name _ _ _ _ S) as (q' & E' & E2). rewrite H in E. assert (q' = q) by congruence. subst q'.
    unfold zero_note. rewrite H, C. f_equal. f_equal. rewrite E1 in E2. injection E2. lia.
  Qed.

  Lemma notes_same c : forall d ps qs, map bare_note c = map bare_note d -> abs_list T P c = Ok ps -> abs_list T P d = Ok qs ->
    List.length ps = List.length qs /\ (ps = qs -> map zero_note c = map zero_note d).
  Proof.
    induction c as [|n c IH]; intros [|m d] ps qs B; try discriminate; cbn [abs_list].
    - intros [= <-] [= <-]. auto.
    - cbn [map] in B. injection B as B0 B1 B2. assert (B : bare_note n = bare_note m) by (unfold bare_note; congruence).
      destruct (read_node T P n) as [p|] eqn:R; [|discriminate]. cbn [bindr].
      destruct (abs_list T P c) as [ps'|] eqn:A; [|discriminate]. cbn [bindr]. intros [= <-].
      destruct (read_node T P m) as [p'|] eqn:R'; [|discriminate]. cbn [bindr].
      destruct (abs_list T P d) as [qs'|] eqn:A'; [|discriminate]. cbn [bindr]. intros [= <-].
      destruct (IH d _ _ B2 eq_refl A') as [L S]. split; [cbn; lia|]. intros [= <- <-]. cbn [map].
      rewrite (note_same _ _ _ B R R'), S; reflexivity.
  Qed.

  Lemma app_split {A} (a b c d : list A) : List.length a = List.length c -> a ++ b = c ++ d -> a = c /\ b = d.
  Proof.
    revert c. induction a as [|x a IH]; intros [|y c]; try discriminate; cbn; [auto|]. intros L [= <- E].
    destruct (IH c ltac:(lia) E) as [-> ->]. auto.
  Qed.

  Lemma music_same i : forall j ps qs, no_relative i = true -> no_check i = true -> bare i = bare j ->
    abs_read T P fa i = Ok ps -> abs_read T P fa j = Ok qs ->
    List.length ps = List.length qs /\ (ps = qs -> plain_zero i = plain_zero j).
  Proof.
    induction i as [n|c|n| |s b _|l IH] using item_ind2; intros j ps qs NR NC B; try discriminate;
      destruct j as [m|d|m| |s' b'|k]; try discriminate.
    - cbn [bare] in B. injection B as B0 B1. assert (B : bare_note n = bare_note m) by (unfold bare_note; congruence). cbn [abs_read].
      destruct (read_node T P n) as [p|] eqn:R; [|discriminate]. cbn [bindr]. intros [= <-].
      destruct (read_node T P m) as [p'|] eqn:R'; [|discriminate]. cbn [bindr]. intros [= <-].
      split; [reflexivity|]. intros [= <-]. cbn [plain_zero]. now rewrite (note_same _ _ _ B R R').
    - cbn [bare] in B. injection B as B. cbn [abs_read]. intros A A'. destruct (notes_same _ _ _ _ B A A') as [L S].
      split; [exact L|]. intros E. cbn [plain_zero]. now rewrite S.
    - intros [= <-] [= <-]. auto.
    - cbn [bare] in B. injection B as B. rewrite !abs_read_list.
      assert (X : abs_reads T P fa l = Ok ps -> abs_reads T P fa k = Ok qs ->
        List.length ps = List.length qs /\ (ps = qs -> map plain_zero l = map plain_zero k)).
      { unfold no_relative in NR. unfold no_check in NC. cbn [every] in NR, NC.
        apply andb_prop in NR as [_ NR]. apply andb_prop in NC as [_ NC].
        revert k ps qs B. induction l as [|x r IHr]; intros [|y k] ps qs B; try discriminate; cbn [abs_reads].
        - intros [= <-] [= <-]. auto.
        - cbn [map] in B. injection B as Bx B. apply Forall_cons_iff in IH as [IHx IHl]. cbn [forallb] in NR, NC.
          apply andb_prop in NR as [NRx NR]. apply andb_prop in NC as [NCx NC].
          destruct (abs_read T P fa x) as [p1|] eqn:A1; [|discriminate]. cbn [bindr].
          destruct (abs_reads T P fa r) as [p2|] eqn:A2; [|discriminate]. cbn [bindr]. intros [= <-].
          destruct (abs_read T P fa y) as [q1|] eqn:A3; [|discriminate]. cbn [bindr].
          destruct (abs_reads T P fa k) as [q2|] eqn:A4; [|discriminate]. cbn [bindr]. intros [= <-].
          destruct (IHx y _ _ NRx NCx Bx eq_refl A3) as [L1 S1]. destruct (IHr IHl NR NC k _ _ B eq_refl A4) as [L2 S2].
          rewrite !app_length. split; [lia|]. intros E. apply app_split in E; [|exact L1]. destruct E as [-> ->].
          cbn [map]. now rewrite S1, S2. }
      intros A A'. destruct (X A A') as [L S]. split; [exact L|]. intros E. cbn [plain_zero]. now rewrite S.
  Qed.
End Same.

Lemma drop_no_checks i : no_check i = true -> drop_checks i = i.
Proof.
  induction i as [n|c|n| |s b IH|l IH] using item_ind2; intros H; try reflexivity.
  unfold no_check in H. cbn [every] in H. apply andb_prop in H as [_ H]. cbn [drop_checks]. f_equal.
  induction l as [|x r IHr]; [reflexivity|]. apply Forall_cons_iff in IH as [IHx IHl]. cbn [forallb] in H. apply andb_prop in H as [Hx H].
  cbn [map filter]. rewrite (IHx Hx). replace (negb (is_check x)) with true; [now rewrite (IHr IHl H)|].
  destruct x; try reflexivity. discriminate.
Qed.

Definition convertible (e : entry) : Prop :=
  match e with DRel _ _ b => no_relative b = true /\ checks_last b = true | _ => True end.

Lemma convert_all_spec T P fa d : Forall convertible d ->
  Forall (fun e => exists ps, entry_read T P fa e = Ok ps) d ->
  exists d', convert_where T P fa (fun _ => true) d = Ok d' /\
    Forall2 (fun e e' => entry_read T P fa e' = entry_read T P fa e /\
       match e with DRel _ s b => exists b', e' = DMusic b' /\ bare b' = bare (drop_checks b) | _ => e' = e end) d d'.
Proof.
  induction d as [|e d IH]; intros C R.
  - exists []. split; [reflexivity|constructor].
  - apply Forall_cons_iff in C as [Ce C]. apply Forall_cons_iff in R as [(ps & Re) R]. destruct (IH C R) as (d' & D & F).
    destruct e as [l|sel s b|b]; cbn [convert_where]; rewrite D; cbn [bindr].
    + eexists. split; [reflexivity|]. constructor; [auto|exact F].
    + destruct Ce as [NR CL]. destruct (convert_spec T P fa s b ps NR CL Re) as (b' & E & A & B). rewrite E. cbn [bindr].
      eexists. split; [reflexivity|]. constructor; [|exact F]. split; [cbn [entry_read] in *; now rewrite A, Re|]. exists b'. auto.
    + eexists. split; [reflexivity|]. constructor; [auto|exact F].
Qed.

Lemma no_start T P fa i : forall last i' last' new', relative_notes T P fa false i last None = Ok (i', last', new') -> new' = None.
Proof.
  assert (N : forall n last m p new', relative_note T P fa false n last None = Ok (m, p, new') -> new' = None).
  { intros n last m p new'. unfold relative_note. destruct (read_node T P n) as [q|]; [|discriminate]. cbn [bindr].
    destruct last as [l|]; cbn [first_pitch bindr]; destruct (process _ _ _ _ _) as [x [y|]]; cbn [bindr]; congruence. }
  induction i as [n|c|n| |s b IH|l IH] using item_ind2; intros last i' last' new'; try (cbn; congruence).
  - cbn [relative_notes]. destruct (relative_note T P fa false n last None) as [[[m p] w]|] eqn:E; [|discriminate]. cbn [bindr].
    intros [= <- <- <-]. now apply N in E.
  - cbn [relative_notes]. destruct (relative_note T P fa false n last None) as [[[m p] w]|] eqn:E; [|discriminate]. cbn [bindr].
    intros [= <- <- <-]. now apply N in E.
  - cbn [relative_notes]. destruct s as [s|].
    + destruct (relative_note T P fa false s last None) as [[[m p] w]|] eqn:E; [|discriminate]. cbn [bindr].
      apply N in E. subst w. destruct (relative_notes T P fa false b (Some p) None) as [[[b' l'] w']|] eqn:E'; [|discriminate]. cbn [bindr].
      intros [= <- <- <-]. now apply IH in E'.
    + destruct (relative_notes T P fa false b last None) as [[[b' l'] w']|] eqn:E'; [|discriminate]. cbn [bindr].
      intros [= <- <- <-]. now apply IH in E'.
  - rewrite relative_notes_list. destruct (relatives T P fa false l last None) as [[[l' k] w]|] eqn:E; [|discriminate]. cbn [bindr].
    intros [= <- <- <-]. revert last l' k w E. induction l as [|x r IHr]; intros last l' k w; cbn [relatives]; [congruence|].
    apply Forall_cons_iff in IH as [IHx IHl].
    destruct (relative_notes T P fa false x last None) as [[[x' k'] w']|] eqn:E; [|discriminate]. cbn [bindr].
    apply IHx in E. subst w'. destruct (relatives T P fa false r k' None) as [[[r' k2] w2]|] eqn:E; [|discriminate]. cbn [bindr].
    intros [= <- <- <-]. eapply IHr; [exact IHl|exact E].
Qed.

Lemma make_relative_no_start T P fa b s b' : make_relative_music T P fa false b = Ok (s, b') -> s = None.
Proof.
  unfold make_relative_music. destruct (relative_notes T P fa false b None None) as [[[b0 l] w]|] eqn:E; [|discriminate]. cbn [bindr].
  intros [= <- <-]. eapply no_start; exact E.
Qed.

Lemma make_relative_first T P fa : tables_ok T -> forall n r s b' ps,
  (exists t name o, lang_table T (language P) = Ok t /\ names_pitch t name o 0 0) ->
  abs_read T P fa (IList (INote n :: r)) = Ok ps ->
  make_relative_music T P fa true (IList (INote n :: r)) = Ok (s, b') -> (forall p, In p ps -> 0 <= note p <= 6) ->
  exists m r', b' = IList (INote m :: r') /\ node_octave m = 0.
Proof.
  intros OK n r s b' ps CS A E V. rewrite abs_read_list in A. cbn [abs_reads abs_read] in A.
  destruct (read_node T P n) as [p|] eqn:R; [|discriminate]. cbn [bindr] in A.
  destruct (abs_reads T P fa r) as [qs|]; [|discriminate]. cbn [bindr app] in A. injection A as <-.
  destruct (relative_note_spec T P fa true OK n None None p (fun _ => CS) R) as (m & new & start & c & N & B & _ & _ & Z).
  unfold make_relative_music in E. rewrite relative_notes_list in E. cbn [relatives relative_notes] in E. rewrite N in E. cbn [bindr] in E.
  destruct (relatives T P fa true r (Some p) new) as [[[r' l'] w]|]; [|discriminate]. cbn [bindr] in E. injection E as <- <-.
  exists m, r'. split; [reflexivity|]. destruct (Z eq_refl) as [_ Z']. apply Z'. apply V. now left.
Qed.
