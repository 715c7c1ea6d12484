(** Property C130: transposing changes the text of the chosen pitches only. *)
From Coq Require Import String Ascii List ZArith QArith Arith PeanoNat Bool Lia.
From Verif Require Import Attrs_Spec Transpose_Proofs Transpose_Props.
From Verif Require Import Base Pitch_Model Pitch_Spec Transpose_Model Transpose_Spec Transposedoc_Model Transposedoc_Spec Transposedoc_Props
  Element_Model Element_Spec Element_Proofs Element_Edits Element_Props Writeback_Model Writeback_Props Writeback_Local Doctext_Model.
Import ListNotations.
Open Scope Z_scope.

(** ** Specification *)

(** The place of an element's head in the text. *)
Definition place_of (a : attrs) (i j : nat) : Prop := span_of (a_head_origin a) = Some (i, j).

(** What a mark (octave or octave check) that means [old] must become, to mean [z]. *)
Inductive mark_change (a : attrs) (old z : Z) (text : str) : list change -> Prop :=
| mark_same : z = old -> mark_change a old z text []
| mark_other i j : z <> old -> place_of a i j -> mark_change a old z text [Change i j text].

Inductive octave_change (a : attrs) : option (attrs * Z) -> option Z -> list change -> Prop :=
| octave_none : octave_change a None None []
| octave_new i j z : place_of a i j -> octave_change a None (Some z) [Change j j (octave_text z)]
| octave_set b old z c : mark_change b old z (octave_text z) c -> octave_change a (Some (b, old)) (Some z) c.

Inductive check_change : option (attrs * Z) -> option Z -> list change -> Prop :=
| check_none : check_change None None []
| check_set b old z c : mark_change b old z (txt "=" ++ octave_text z) c -> check_change (Some (b, old)) (Some z) c.

Inductive name_change (a : attrs) (name name' : str) : list change -> Prop :=
| name_same : name' = name -> name_change a name name' []
| name_other i j : name' <> name -> place_of a i j -> name_change a name name' [Change i j name'].

(** [respelled d y cs]: the replacements [cs], in the order of the text, turn the
    pitches of the document [d] into those of the music [y].  A name that differs is
    replaced, so are octave marks and octave checks; octave marks that were not
    there come right after the name. *)
Inductive respelled : dtree -> mtree -> list change -> Prop :=
| re_pitch a w name oct acc chk kids n ch cn co cc ck :
    name_change a name (head (r_node n)) cn ->
    octave_change a oct (octave_child (r_node n)) co ->
    check_change chk (oct_check (r_node n)) cc ->
    respelled_all kids ch ck ->
    respelled (DPitch a w name oct acc chk kids) (MPitch n ch) (cn ++ co ++ cc ++ ck)
| re_untouched k a kids y : match k with KSkip | KLang _ | KComment => True | _ => False end ->
    respelled (DNode k a kids) y []
| re_node k a kids y ck : match k with KSkip | KLang _ | KComment => False | _ => True end ->
    respelled_all kids (mchildren y) ck -> respelled (DNode k a kids) y ck
with respelled_all : list dtree -> list mtree -> list change -> Prop :=
| re_nil : respelled_all [] [] []
| re_cons d y r s c cs : respelled d y c -> respelled_all r s cs -> respelled_all (d :: r) (y :: s) (c ++ cs).

(** The document is as the parser made it.  No head or tail was modified; the
    pitches and their marks have a place in the text and their heads are the
    names and marks; there is no space in a pitch (lily.py 1471-1560, 1643-1680
    define none, so the defaults of element.py 495-540 hold). *)
Definition unmodified (a : attrs) : Prop := a_head_modified a = false /\ a_tail_modified a = false.
Definition plain_head (a : attrs) (text : str) : Prop :=
  a_kind a = Head /\ a_head a = Ok text /\ a_tail a = [] /\ exists i j, place_of a i j.

Section Fresh.
Variable concat_space : attrs -> elem -> elem -> str.

Inductive fresh : dtree -> Prop :=
| fresh_pitch a w name oct acc chk kids :
    unmodified a -> plain_head a name -> a_after_head a = [] -> spaces_only (a_after a) ->
    (forall n m, concat_space a n m = []) ->
    (forall b z, oct = Some (b, z) -> unmodified b /\ plain_head b (octave_text z)) ->
    (forall b, acc = Some b -> unmodified b) ->
    (forall b z, chk = Some (b, z) -> unmodified b /\ plain_head b (txt "=" ++ octave_text z)) ->
    Forall fresh kids -> fresh (DPitch a w name oct acc chk kids)
| fresh_node k a kids : unmodified a -> Forall fresh kids -> fresh (DNode k a kids).
End Fresh.

(** The pitches of a document that transposing looks at, with whether they are chosen. *)
Inductive pitch_in : dtree -> bool -> attrs -> option (attrs * Z) -> option (attrs * Z) -> Prop :=
| in_here a w name oct acc chk kids : pitch_in (DPitch a w name oct acc chk kids) w a oct chk
| in_pitch a w name oct acc chk kids k w' b oct' chk' : In k kids -> pitch_in k w' b oct' chk' -> pitch_in (DPitch a w name oct acc chk kids) w' b oct' chk'
| in_node m a kids k w' b oct' chk' : In k kids -> pitch_in k w' b oct' chk' -> pitch_in (DNode m a kids) w' b oct' chk'.

(** The place is that of the pitch name, right after it, or that of one of its marks. *)
Definition at_pitch (a : attrs) (oct chk : option (attrs * Z)) (c : change) : Prop :=
  place_of a (c_pos c) (c_end c) \/ (exists i, place_of a i (c_pos c) /\ c_end c = c_pos c) \/
  exists b z, (oct = Some (b, z) \/ chk = Some (b, z)) /\ place_of b (c_pos c) (c_end c).

(** ** Proofs *)

Section Ind.
  Variable Q : dtree -> Prop.
  Hypothesis Hp : forall a w name oct acc chk kids, Forall Q kids -> Q (DPitch a w name oct acc chk kids).
  Hypothesis Hn : forall k a kids, Forall Q kids -> Q (DNode k a kids).
  Fixpoint dtree_rect' (d : dtree) : Q d :=
    let all := fix all (l : list dtree) : Forall Q l :=
      match l with [] => Forall_nil Q | y :: r => @Forall_cons _ Q y r (dtree_rect' y) (all r) end in
    match d with
    | DPitch a w name oct acc chk kids => Hp a w name oct acc chk kids (all kids)
    | DNode k a kids => Hn k a kids (all kids)
    end.
End Ind.

Definition redo_all (id : nat) : list dtree -> list mtree -> list dtree :=
  fix all l m := match l, m with x :: r, z :: s => redo id x z :: all r s | _, _ => l end.
Lemma redo_pitch id a w name oct acc chk kids n ch : redo id (DPitch a w name oct acc chk kids) (MPitch n ch) =
  DPitch (set_head a (str_eqb (head (r_node n)) name) (head (r_node n))) w (head (r_node n))
    (redo_octave id oct (octave_child (r_node n))) acc (redo_check chk (oct_check (r_node n))) (redo_all id kids ch).
Proof. reflexivity. Qed.
Lemma redo_node id k a kids y : redo id (DNode k a kids) y =
  DNode k a (match k with KLang _ | KComment | KSkip => kids | _ => redo_all id kids (mchildren y) end).
Proof. reflexivity. Qed.

Lemma octave_text_is z : octave_to_string z = octave_text z.
Proof.
  unfold octave_to_string, octave_text. destruct (Z.ltb_spec z 0).
  - now replace (Z.to_nat z) with 0%nat by lia.
  - replace (Z.to_nat (- z)) with 0%nat by lia. now rewrite app_nil_r.
Qed.

Lemma octave_text_ne z : z <> 0 -> octave_text z <> [].
Proof.
  unfold octave_text. intros H E. apply app_eq_nil in E. destruct E as [E1 E2].
  assert (L : forall c n, repeat (c : ascii) n = [] -> n = 0%nat) by (intros c [|n]; [reflexivity|discriminate]).
  apply L in E1. apply L in E2. lia.
Qed.

Section Edit.
Variable concat_space : attrs -> elem -> elem -> str.
Variable octave_id : nat.
Hypothesis BT : by_type concat_space.

Lemma same_place_refl a : same_place a a. Proof. repeat split. Qed.
Lemma same_place_set a b t : same_place a (set_head a b t). Proof. destruct b; repeat split. Qed.

(* no new children *)
Inductive every : list elem -> list elem -> list change -> Prop :=
| every_nil : every [] [] []
| every_cons e e' r r' c cs : edited concat_space e e' c -> every r r' cs -> every (e :: r) (e' :: r') (c ++ cs).
Lemma every_edited p r r' c : every r r' c -> edited_all concat_space p r r' c.
Proof. induction 1; now constructor. Qed.

Lemma edited_app a a' c b b' d : every a a' c -> every b b' d -> every (a ++ b) (a' ++ b') (c ++ d).
Proof.
  revert a' c. induction a as [|x a IH]; intros a' c H H2; inversion H; subst; [exact H2|].
  cbn [app]. rewrite <- app_assoc. constructor; auto.
Qed.

Lemma edited_keep a kids kids' c : unmodified a -> every kids kids' c -> edited concat_space (E a kids) (E a kids') c.
Proof.
  intros [U1 U2] H. rewrite <- (app_nil_r c), <- (app_nil_l (c ++ [])).
  apply edited_node; try reflexivity; [apply same_place_refl|rewrite U1; constructor|rewrite U2; constructor|now apply every_edited].
Qed.

Lemma edited_one e e' c : edited concat_space e e' c -> every [e] [e'] c.
Proof. intros H. rewrite <- (app_nil_r c). constructor; [exact H|constructor]. Qed.

Lemma fresh_same d : fresh concat_space d -> edited concat_space (elements d) (elements d) [].
Proof.
  assert (ALL : forall kids, Forall (fun d => fresh concat_space d -> edited concat_space (elements d) (elements d) []) kids ->
    Forall (fresh concat_space) kids -> every (map elements kids) (map elements kids) []).
  { induction kids as [|x kids IH]; intros G F; inversion G; inversion F; subst; cbn [map]; [constructor|].
    apply (every_cons _ _ _ _ [] []); auto. }
  induction d as [a w name oct acc chk kids G|k a kids G] using dtree_rect'; intros F; inversion F; subst; cbn [elements].
  - apply edited_keep; [assumption|].
    assert (M : forall o (f : Z -> str), (forall b z, o = Some (b, z) -> unmodified b /\ plain_head b (f z)) -> every (mark o) (mark o) []).
    { intros [[b z]|] f H; cbn [mark]; [|constructor]. apply edited_one, edited_keep; [apply (H b z eq_refl)|constructor]. }
    apply (edited_app _ _ [] _ _ []); [apply (M oct octave_text); assumption|].
    apply (edited_app _ _ [] _ _ []).
    { destruct acc as [b|]; cbn [sign]; [|constructor]. apply edited_one, edited_keep; [auto|constructor]. }
    apply (edited_app _ _ [] _ _ []); [apply (M chk (fun z => txt "=" ++ octave_text z)); assumption|]. auto.
  - apply edited_keep; auto.
Qed.

Lemma fresh_same_all kids : Forall (fresh concat_space) kids -> every (map elements kids) (map elements kids) [].
Proof.
  induction 1 as [|x kids F _ IH]; cbn [map]; [constructor|]. apply (every_cons _ _ _ _ [] []); [now apply fresh_same|exact IH].
Qed.

(** A mark that gets another value. *)
Lemma mark_edited a old z (text : Z -> str) : unmodified a -> plain_head a (text old) ->
  exists c, mark_change a old z (text z) c /\ edited concat_space (E a []) (E (set_head a (z =? old) (text z)) []) c.
Proof.
  intros [U1 U2] (K & H & T & i & j & P). destruct (Z.eqb_spec z old) as [->|N]; cbn [set_head].
  - exists []. split; [now constructor|]. apply edited_keep; [split; assumption|constructor].
  - exists [Change i j (text z)]. split; [now constructor|].
    apply (edited_node concat_space _ _ _ _ [Change i j (text z)] [] []); cbn; try reflexivity.
    + repeat split.
    + rewrite U1. now constructor.
    + rewrite U2. constructor.
    + unfold has_head. rewrite K. discriminate.
    + constructor.
Qed.

Lemma redo_edited d : fresh concat_space d -> forall y, same_but_pitches (music d) y ->
  exists cs, respelled d y cs /\ edited concat_space (elements d) (elements (redo octave_id d y)) cs.
Proof.
  assert (ALL : forall kids, Forall (fun d => fresh concat_space d -> forall y, same_but_pitches (music d) y ->
      exists cs, respelled d y cs /\ edited concat_space (elements d) (elements (redo octave_id d y)) cs) kids ->
    Forall (fresh concat_space) kids -> forall ys, Forall2 same_but_pitches (map music kids) ys ->
    exists cs, respelled_all kids ys cs /\ every (map elements kids) (map elements (redo_all octave_id kids ys)) cs).
  { induction kids as [|x kids IH]; intros G F ys S; inversion S; subst; cbn [map redo_all].
    - exists []. split; constructor.
    - inversion G; inversion F; subst. edestruct IH as (cs & R & D); [eassumption|eassumption|eassumption|].
      match goal with H : fresh _ x -> _, K : same_but_pitches (music x) _ |- _ => destruct (H ltac:(assumption) _ K) as (c & R1 & D1) end.
      exists (c ++ cs). split; constructor; assumption. }
  induction d as [a w name oct acc chk kids G|k a kids G] using dtree_rect'; intros F y S; inversion F as [? ? ? ? ? ? ? U PH AH AS CS HO HA HC FK|? ? ? U FK]; subst.
  - cbn [music] in S. inversion S as [n n' ch ch' W1 W2 (M1 & M2 & M3) SK| | | | | | | | |x X]; subst; [|destruct X].
    cbn [r_node octave_child oct_check] in M1, M2, M3.
    destruct (ALL kids G FK ch' SK) as (ck & RK & DK). rewrite redo_pitch. cbn [elements].
    destruct U as [U1 U2]. destruct PH as (K & HH & TT & i & j & PL).
    (* the name *)
    assert (N : exists cn, name_change a name (head (r_node n')) cn /\
      part (a_head_origin a) (a_head a) (a_head_modified a) (a_head (set_head a (str_eqb (head (r_node n')) name) (head (r_node n'))))
        (a_head_modified (set_head a (str_eqb (head (r_node n')) name) (head (r_node n')))) cn).
    { unfold str_eqb. destruct (list_eq_dec ascii_dec (head (r_node n')) name) as [E|E]; cbn [set_head].
      - exists []. split; [now constructor|]. rewrite U1. constructor.
      - eexists. split; [econstructor; eassumption|]. cbn [a_head a_head_modified]. rewrite U1. now constructor. }
    destruct N as (cn & N1 & N2). set (a' := set_head a _ _) in *.
    assert (SP : same_place a a') by apply same_place_set.
    assert (TM : a_tail a' = a_tail a /\ a_tail_modified a' = a_tail_modified a) by (unfold a', set_head; destruct (str_eqb _ _); split; reflexivity).
    (* the check *)
    assert (C : exists cc, check_change chk (oct_check (r_node n')) cc /\
      every (mark chk) (mark (redo_check chk (oct_check (r_node n')))) cc).
    { destruct chk as [[b z]|]; cbn [option_map snd] in M3.
      - destruct (oct_check (r_node n')) as [z'|]; [|destruct M3 as [M3 _]; specialize (M3 eq_refl); discriminate].
        destruct (HC b z eq_refl) as [UB PB].
        destruct (mark_edited b z z' (fun z => txt "=" ++ octave_text z) UB PB) as (c & C1 & C2).
        exists c. split; [now constructor|]. cbn [redo_check mark]. rewrite octave_text_is. now apply edited_one.
      - destruct M3 as [_ M3]. rewrite (M3 eq_refl). exists []. split; constructor. }
    destruct C as (cc & C1 & C2).
    assert (A0 : every (sign acc) (sign acc) []).
    { destruct acc as [b|]; cbn [sign]; [|constructor]. apply edited_one, edited_keep; [auto|constructor]. }
    assert (REST : every (sign acc ++ mark chk ++ map elements kids)
      (sign acc ++ mark (redo_check chk (oct_check (r_node n'))) ++ map elements (redo_all octave_id kids ch')) (cc ++ ck)).
    { apply (edited_app _ _ [] _ _ (cc ++ ck)); [exact A0|]. apply edited_app; assumption. }
    destruct oct as [[b z]|]; cbn [option_map snd] in M1, M2.
    + destruct (octave_child (r_node n')) as [z'|] eqn:OC; [|now destruct M1].
      destruct (HO b z eq_refl) as [UB PB]. destruct (mark_edited b z z' octave_text UB PB) as (co & O1 & O2).
      exists (cn ++ co ++ cc ++ ck). split; [econstructor; try eassumption; rewrite OC; now constructor|].
      cbn [redo_octave mark]. rewrite octave_text_is.
      replace (cn ++ co ++ cc ++ ck) with (cn ++ (co ++ cc ++ ck) ++ []) by now rewrite app_nil_r.
      apply edited_node; try assumption.
      * now rewrite (proj1 TM).
      * destruct TM as [-> ->]. rewrite U2. constructor.
      * unfold has_head. rewrite K. discriminate.
      * reflexivity.
      * apply every_edited, edited_app; [now apply edited_one|exact REST].
    + destruct (octave_child (r_node n')) as [z'|] eqn:OC.
      * exists (cn ++ [Change j j (octave_text z')] ++ cc ++ ck). split; [econstructor; try eassumption; rewrite OC; econstructor; eassumption|].
        cbn [redo_octave mark app].
        apply (edited_insert concat_space a a' (E (new_octave octave_id z') []) [octave_text z'] _ _ cn (cc ++ ck) i j); try assumption.
        -- now rewrite (proj1 TM).
        -- rewrite <- octave_text_is. apply new_node_text; try reflexivity; [|constructor]. rewrite octave_text_is. apply octave_text_ne.
           intros ->. now apply (M2 eq_refl).
        -- intros k r _. rewrite (BT a a' (E (new_octave octave_id z') []) (E (new_octave octave_id z') []) k k); try reflexivity; try apply SP. apply CS.
        -- now apply every_edited.
      * exists (cn ++ cc ++ ck). split; [apply (re_pitch a w name None acc chk kids n' ch' cn [] cc ck); try assumption; rewrite OC; constructor|].
        cbn [redo_octave mark app]. replace (cn ++ cc ++ ck) with (cn ++ (cc ++ ck) ++ []) by now rewrite app_nil_r.
        apply edited_node; try assumption.
        -- now rewrite (proj1 TM).
        -- destruct TM as [-> ->]. rewrite U2. constructor.
        -- unfold has_head. rewrite K. discriminate.
        -- reflexivity.
        -- now apply every_edited.
  - rewrite redo_node.
    assert (KEEP : match k with KSkip | KLang _ | KComment => True | _ => False end ->
      exists cs, respelled (DNode k a kids) y cs /\ edited concat_space (elements (DNode k a kids)) (elements (DNode k a kids)) cs).
    { intros X. exists []. split; [now constructor|]. now apply fresh_same. }
    assert (GO : match k with KSkip | KLang _ | KComment => False | _ => True end -> Forall2 same_but_pitches (map music kids) (mchildren y) ->
      exists cs, respelled (DNode k a kids) y cs /\ edited concat_space (elements (DNode k a kids)) (elements (DNode k a (redo_all octave_id kids (mchildren y)))) cs).
    { intros X S2. destruct (ALL kids G FK _ S2) as (ck & RK & DK). exists ck. split; [now constructor|]. cbn [elements]. now apply edited_keep. }
    destruct k; cbn [music] in S; try (apply KEEP; exact I); (apply GO; [exact I|]); inversion S; subst; try contradiction; assumption.
Qed.
End Edit.

(** Carrying out the assignments gives the elements of the new music. *)
Lemma redo_music id d : forall y, same_but_pitches (music d) y -> music (redo id d y) = y.
Proof.
  assert (ALL : forall kids, Forall (fun d => forall y, same_but_pitches (music d) y -> music (redo id d y) = y) kids ->
    forall ys, Forall2 same_but_pitches (map music kids) ys -> map music (redo_all id kids ys) = ys).
  { induction kids as [|x kids IH]; intros G ys S; inversion S; subst; cbn [map redo_all]; [reflexivity|]. inversion G; subst. f_equal; auto. }
  induction d as [a w name oct acc chk kids G|k a kids G] using dtree_rect'; intros y S.
  - cbn [music] in S. inversion S as [n n' ch ch' W1 W2 (M1 & M2 & M3) SK| | | | | | | | |x X]; subst; [|destruct X].
    rewrite redo_pitch. cbn [music]. rewrite (ALL kids G ch' SK). f_equal. destruct n' as [[h o c] w']. cbn [r_node r_writable head octave_child oct_check] in *. subst w'.
    do 2 f_equal.
    + destruct oct as [[b z]|], o as [z'|]; cbn in *; try reflexivity. now destruct M1.
    + destruct chk as [[b z]|], c as [z'|]; cbn in *; try reflexivity.
      * destruct M3 as [M3 _]. specialize (M3 eq_refl). discriminate.
      * destruct M3 as [_ M3]. specialize (M3 eq_refl). discriminate.
  - rewrite redo_node. destruct k; cbn [music] in *; inversion S; subst; try contradiction; try reflexivity; cbn [mchildren]; f_equal; auto.
Qed.

Scheme respelled_ind2 := Induction for respelled Sort Prop
with respelled_all_ind2 := Induction for respelled_all Sort Prop.
Combined Scheme respelled_mutind from respelled_ind2, respelled_all_ind2.

Lemma respelled_at : (forall d y cs, respelled d y cs -> same_but_pitches (music d) y -> forall c, In c cs ->
    exists a oct chk, pitch_in d true a oct chk /\ at_pitch a oct chk c) /\
  (forall l ys cs, respelled_all l ys cs -> Forall2 same_but_pitches (map music l) ys -> forall c, In c cs ->
    exists k a oct chk, In k l /\ pitch_in k true a oct chk /\ at_pitch a oct chk c).
Proof.
  apply respelled_mutind.
  - intros a w name oct acc chk kids n ch cn co cc ck N O C R IH S c I.
    cbn [music] in S. inversion S as [m n' ch1 ch' W1 W2 (M1 & M2 & M3) SK| | | | | | | | |x X]; subst; [|destruct X].
    cbn [r_writable r_node] in *. rewrite !in_app_iff in I.
    destruct I as [I|[I|[I|I]]]; cycle 3.
    { destruct (IH SK c I) as (k & b & o & h & IK & PI & AT). exists b, o, h. split; [econstructor; eassumption|exact AT]. }
    all: destruct w; [|rewrite (W2 eq_refl) in *; cbn [r_node head octave_child oct_check] in *; exfalso].
    + exists a, oct, chk. split; [constructor|]. destruct N; [destruct I|]. destruct I as [<-|[]]. now left.
    + destruct N; [destruct I|]. congruence.
    + exists a, oct, chk. split; [constructor|]. destruct O as [|i j z P|b old z c' M]; [destruct I| |].
      * destruct I as [<-|[]]. right. left. exists i. split; [exact P|reflexivity].
      * destruct M; [destruct I|]. destruct I as [<-|[]]. right. right. exists b, old. split; [now left|assumption].
    + destruct oct as [[b z]|]; cbn [option_map snd] in O; inversion O; subst; [|destruct I].
      match goal with H : mark_change _ _ _ _ _ |- _ => destruct H end; [destruct I|congruence].
    + exists a, oct, chk. split; [constructor|]. destruct C as [|b old z c' M]; [destruct I|].
      destruct M; [destruct I|]. destruct I as [<-|[]]. right. right. exists b, old. split; [now right|assumption].
    + destruct chk as [[b z]|]; cbn [option_map snd] in C; inversion C; subst; [|destruct I].
      match goal with H : mark_change _ _ _ _ _ |- _ => destruct H end; [destruct I|congruence].
  - intros k a kids y X S c [].
  - intros k a kids y ck X R IH S c I.
    assert (SK : Forall2 same_but_pitches (map music kids) (mchildren y)).
    { destruct k; try destruct X; cbn [music] in S; inversion S; subst; try contradiction; assumption. }
    destruct (IH SK c I) as (k' & b & o & h & IK & PI & AT). exists b, o, h. split; [econstructor; eassumption|exact AT].
  - intros _ c [].
  - intros d y r s c cs R IH RR IHr S x I. cbn [map] in S. inversion S; subst. rewrite in_app_iff in I. destruct I as [I|I].
    + destruct (IH ltac:(assumption) x I) as (a & o & h & P & AT). exists d, a, o, h. split; [now left|auto].
    + destruct (IHr ltac:(assumption) x I) as (k & a & o & h & IK & P & AT). exists k, a, o, h. split; [now right|auto].
Qed.

(** ** Theorems *)

(** A document is transposed and the result written back.  The text is the old
    one with the pitch names, octave marks and octave checks that differ
    replaced, and new octave marks inserted after the name; nothing else is
    touched, and the elements mean the transposed music. *)
Theorem C130_text : forall concat_space octave_id T t fa P x d y ps doc context start end_,
  let ctx := match context with Some c => c | None => d_root doc end in
  let pos := match start with Some s => s | None => x_pos ctx end in
  let stop := match end_ with Some s => s | None => x_end ctx end in
  d_pending doc = [] -> by_type concat_space -> fresh concat_space d ->
  points concat_space (elements d) = Ok ps ->
  tokens_from 0 (x_tokens ctx) -> cuts_no_token (x_tokens ctx) pos -> placed (x_tokens ctx) pos ps ->
  untouched (x_tokens ctx) pos [] ps -> (stop <= last_end pos ps)%nat -> (last_end pos ps <= List.length (d_text doc))%nat ->
  music d = x -> transpose_doc T t fa P x = Ok y ->
  exists cs, respelled d y cs /\ in_order 0 cs /\
    edit concat_space (elements (redo octave_id d y)) doc context start end_ =
      (Doc (apply_changes (d_text doc) 0 cs) (d_root doc) [], Ok (List.length cs)) /\
    music (redo octave_id d y) = y.
Proof.
  intros concat_space octave_id T t fa P x d y ps doc context start end_ ctx pos stop PE BT F PS TF CN PL UN L1 L2 <- TR.
  pose proof (C125_only_pitches _ _ _ _ _ _ TR) as S.
  destruct (redo_edited concat_space octave_id BT d F y S) as (cs & R & D).
  exists cs. split; [exact R|].
  destruct (C129_text concat_space _ _ ps cs doc context start end_ PE BT PS TF CN PL UN L1 L2 D) as [E O].
  split; [exact O|]. split; [exact E|]. now apply redo_music.
Qed.
Print Assumptions C130_text.

(** Every replacement is at a pitch that was chosen. *)
Theorem C130_chosen : forall T t fa P d y cs c, transpose_doc T t fa P (music d) = Ok y -> respelled d y cs -> In c cs ->
  exists a oct chk, pitch_in d true a oct chk /\ at_pitch a oct chk c.
Proof.
  intros T t fa P d y cs c TR R I. exact (proj1 respelled_at d y cs R (C125_only_pitches _ _ _ _ _ _ TR) c I).
Qed.
Print Assumptions C130_chosen.

(** [{ c4 d'8 e }], where the [e] is not in the selection, is transposed from c to f'. *)
Local Open Scope string_scope. Local Open Scope list_scope. Local Open Scope Z_scope.
Definition dx_tokens : list token := [Tok 0 1; Tok 2 3; Tok 3 4; Tok 5 6; Tok 6 7; Tok 7 8; Tok 9 10; Tok 11 12].
Definition dx_attrs (id : nat) (t : string) (o : token) : attrs :=
  Attrs Head id (Ok (txt t)) [] (Some [o]) None false false [] [] [] [] [].
Definition dx_duration (t : string) (o : token) : dtree := DNode KOther (dx_attrs 3 t o) [].
Definition dx_doc : dtree :=
  DNode KOther (Attrs Block 0 (Ok (txt "{")) (txt "}") (Some [Tok 0 1]) (Some [Tok 11 12]) false false [] (txt " ") (txt " ") (txt " ") [])
  [DPitch (dx_attrs 1 "c" (Tok 2 3)) true (txt "c") None None None [dx_duration "4" (Tok 3 4)];
   DPitch (dx_attrs 1 "d" (Tok 5 6)) true (txt "d") (Some (dx_attrs 2 "'" (Tok 6 7), 1)) None None [dx_duration "8" (Tok 7 8)];
   DPitch (dx_attrs 1 "e" (Tok 9 10)) false (txt "e") None None None []].

Definition dx_transposer := major_transposer c0 (Pitch 0 3 0).
Definition dx_music : mtree := MOther [MPitch (RNote (PNode (txt "f") (Some 1) None) true) [MOther []];
  MPitch (RNote (PNode (txt "g") (Some 2) None) true) [MOther []]; MPitch (RNote (PNode (txt "e") None None) false) []].

Example C130_witness :
  by_type concat_default /\ fresh concat_default dx_doc /\
  (exists ps, points concat_default (elements dx_doc) = Ok ps /\ tokens_from 0 dx_tokens /\ cuts_no_token dx_tokens 0 /\
    placed dx_tokens 0 ps /\ untouched dx_tokens 0 [] ps /\ last_end 0 ps = 12%nat) /\
  transpose_doc ex_tables dx_transposer true default_processor (music dx_doc) = Ok dx_music /\
  edit concat_default (elements (redo 2 dx_doc dx_music)) (Doc (txt "{ c4 d'8 e }") (Context 0 12 dx_tokens) []) None None None
    = (Doc (txt "{ f'4 g''8 e }") (Context 0 12 dx_tokens) [], Ok 4%nat).
Proof.
  split; [intros a a' n n' m m' _ H _ _; exact H|]. split.
  { assert (D : forall t o, fresh concat_default (dx_duration t o)) by (intros; repeat constructor).
    assert (N : forall t w n o oct kids, t = n -> (forall b z, oct = Some (b, z) -> unmodified b /\ plain_head b (octave_text z)) ->
      Forall (fresh concat_default) kids -> fresh concat_default (DPitch (dx_attrs 1 t o) w (txt n) oct None None kids)).
    { intros t w n [i j] oct kids -> O K. constructor; try discriminate; try assumption; try reflexivity; try (now split).
      - repeat split. exists i, j. reflexivity.
      - intros c []. }
    apply fresh_node; [now split|].
    apply Forall_cons; [apply N; [reflexivity|discriminate|apply Forall_cons; [apply D|apply Forall_nil]]|].
    apply Forall_cons; [apply N; [reflexivity| |apply Forall_cons; [apply D|apply Forall_nil]]|].
    { intros b z [= <- <-]. repeat split. exists 6%nat, 7%nat. reflexivity. }
    apply Forall_cons; [apply N; [reflexivity|discriminate|apply Forall_nil]|apply Forall_nil]. }
  split.
  { eexists. split; [vm_compute; reflexivity|]. split; [cbn; lia|]. split; [intros t _; right; lia|]. split.
    { cbn -[cuts_no_token In].
      repeat match goal with
      | |- _ /\ _ => split
      | |- exists t, In t dx_tokens /\ t_pos t = ?i => exists (Tok i (i+1)%nat); split; [cbn; tauto|reflexivity]
      | |- cuts_no_token _ _ => intros t I; cbn in I; repeat destruct I as [<-|I]; cbn; try lia; destruct I
      | |- (_ <= _)%nat => lia
      | |- (_ < _)%nat => lia
      | |- True => exact I
      end. }
    split; [|reflexivity].
    cbn -[strongest In].
    repeat match goal with
    | |- _ /\ _ => split
    | |- _ = false => reflexivity
    | |- True => exact I
    | |- _ = _ -> strongest ?l [] => intros E; try discriminate E; exact (strongest_collapse l)
    | |- forall t, In t _ -> _ => intros t I; cbn in I; repeat destruct I as [<-|I]; cbn; try lia; destruct I
    end. }
  split; vm_compute; reflexivity.
Qed.
