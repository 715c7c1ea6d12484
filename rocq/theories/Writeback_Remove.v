(** Property C131: removing nodes deletes their text. *)
From Coq Require Import String Ascii List Arith PeanoNat Bool Lia.
From Verif Require Import Base Element_Model Element_Spec Element_Proofs Element_Edits Element_Props Writeback_Model Writeback_Props Writeback_Local.
Import ListNotations.

(** ** Specification *)

(** There is text in the element. *)
Inductive writes : elem -> Prop :=
| writes_head a kids : a_kind a <> Plain -> writes (E a kids)
| writes_below a kids k : In k kids -> writes k -> writes (E a kids).

(** The tree with some elements, that have text, removed. *)
Inductive pruned : elem -> elem -> Prop :=
| pruned_node a kids kids' : pruned_all kids kids' -> pruned (E a kids) (E a kids')
with pruned_all : list elem -> list elem -> Prop :=
| pruned_nil : pruned_all [] []
| pruned_keep e e' r r' : pruned e e' -> pruned_all r r' -> pruned_all (e :: r) (e' :: r')
| pruned_drop e r r' : writes e -> pruned_all r r' -> pruned_all (e :: r) r'.

Scheme pruned_ind2 := Induction for pruned Sort Prop
with pruned_all_ind2 := Induction for pruned_all Sort Prop.
Combined Scheme pruned_mutind from pruned_ind2, pruned_all_ind2.

(** The same text at the same place. *)
Definition same_text (p p' : point) : Prop :=
  p_span p' = p_span p /\ p_text p' = p_text p /\ p_modified p' = p_modified p /\ p_before p' = p_before p.

(** [cuts stop pos after gone ps ps' cs]: the texts [ps] become [ps'].  The last
    text that is kept ends at [pos] and wants the space [after] after it; [gone]
    is the end of the last removed text after that, if there is one.  [cs] are
    the changes.  Where texts were removed between two texts that are kept: if
    space is wanted there, it replaces all that is between the two; if no
    space is wanted, the text is deleted up to the end of the last removed
    text, and what follows is kept.  At the end all is deleted up to [stop]. *)
Inductive cuts (stop : nat) : nat -> str -> option nat -> list point -> list point -> list change -> Prop :=
| cuts_end pos after : cuts stop pos after None [] [] []
| cuts_end_gone pos after e : cuts stop pos after (Some e) [] [] (if pos <? stop then [Change pos stop []] else [])
| cuts_keep pos after p p' ps ps' cs i j : p_span p = Some (i, j) -> same_text p p' ->
    cuts stop j (p_after p') None ps ps' cs -> cuts stop pos after None (p :: ps) (p' :: ps') cs
| cuts_keep_gone pos after e p p' ps ps' cs i j s : p_span p = Some (i, j) -> same_text p p' ->
    strongest [after; p_before p] s ->
    cuts stop j (p_after p') None ps ps' cs ->
    cuts stop pos after (Some e) (p :: ps) (p' :: ps') (Change pos (match s with [] => e | _ => i end) s :: cs)
| cuts_drop pos after gone p ps ps' cs i j : p_span p = Some (i, j) ->
    cuts stop pos after (Some j) ps ps' cs -> cuts stop pos after gone (p :: ps) ps' cs.

(** At the end of every text a token ends. *)
Definition whole_tokens (tokens : list token) (ps : list point) : Prop :=
  Forall (fun p => forall i j, p_span p = Some (i, j) -> exists t, In t tokens /\ t_end t = j) ps.

(** ** Proofs *)

(** [sub f b ps ps']: the list with some points removed.  [b] tells whether the
    first is removed (with [f] for what comes after the list); the space wanted
    after a point is the same unless the next one is removed. *)
Inductive sub (f : bool) : bool -> list point -> list point -> Prop :=
| sub_nil : sub f f [] []
| sub_keep b p p' ps ps' : same_text p p' -> (b = false -> p_after p' = p_after p) -> sub f b ps ps' -> sub f false (p :: ps) (p' :: ps')
| sub_drop b p ps ps' : sub f b ps ps' -> sub f true (p :: ps) ps'.

Lemma same_text_refl p : same_text p p. Proof. repeat split. Qed.

Lemma sub_app f b1 b2 A A' B B' : sub b2 b1 A A' -> sub f b2 B B' -> sub f b1 (A ++ B) (A' ++ B').
Proof. intros H. induction H; intros HB; cbn [app]; [exact HB| |]; econstructor; eauto. Qed.

Lemma sub_weaken b A A' : sub false b A A' -> sub true (match A with [] => true | _ => b end) A A'.
Proof.
  induction 1 as [|b p p' ps ps' S H R IH|b p ps ps' R IH]; [constructor| |].
  - econstructor; [exact S| |exact IH]. destruct ps; [discriminate|exact H].
  - econstructor. exact IH.
Qed.

Lemma sub_empty f b A : sub f b A [] -> A <> [] -> b = true.
Proof. intros H N. inversion H; subst; [congruence|reflexivity]. Qed.

Lemma sub_collapse f b A A' w w' : sub f b A A' -> (f = false -> w' = w) -> sub f b (collapse_last A w) (collapse_last A' w').
Proof.
  intros H W. induction H as [|b p p' ps ps' S H R IH|b p ps ps' R IH].
  - constructor.
  - destruct ps as [|x ps].
    + inversion R; subst. cbn [collapse_last]. destruct S as (S1 & S2 & S3 & S4).
      apply (sub_keep b b); [repeat split; assumption| |constructor]. cbn [p_after]. intros ->. now rewrite H, W.
    + change (collapse_last (p :: x :: ps) w) with (p :: collapse_last (x :: ps) w).
      destruct ps' as [|x' ps'].
      * pose proof (sub_empty _ _ _ R ltac:(discriminate)) as ->.
        cbn [collapse_last] in *. apply (sub_keep f true); [|discriminate|exact IH].
        destruct S as (S1 & S2 & S3 & S4). repeat split; assumption.
      * change (collapse_last (p' :: x' :: ps') w') with (p' :: collapse_last (x' :: ps') w').
        apply (sub_keep f b); assumption.
  - destruct ps as [|x ps].
    + inversion R; subst. cbn [collapse_last]. apply (sub_drop b b). constructor.
    + change (collapse_last (p :: x :: ps) w) with (p :: collapse_last (x :: ps) w). apply (sub_drop f b). exact IH.
Qed.

Lemma collapse_nothing w : collapse_whitespace [w; []] = w.
Proof.
  cbn [collapse_whitespace fold_left].
  replace (key_lt (whitespace_key w) (whitespace_key [])) with false; [reflexivity|].
  symmetry. unfold key_lt, whitespace_key. cbn [count fst snd]. destruct (count nl w); cbn; [|reflexivity]. now destruct (count sp w).
Qed.

Lemma collapse_last_nothing ps : collapse_last ps [] = ps.
Proof.
  induction ps as [|p [|q ps] IH]; [reflexivity| |].
  - cbn [collapse_last]. rewrite collapse_nothing. now destruct p.
  - change (p :: collapse_last (q :: ps) [] = p :: q :: ps). now rewrite IH.
Qed.

Lemma collapse_last_empty ps w : collapse_last ps w = [] -> ps = [].
Proof. destruct ps as [|p [|q ps]]; [reflexivity|discriminate|discriminate]. Qed.

Section Trees.
Variable concat_space : attrs -> elem -> elem -> str.
Hypothesis BT : by_type concat_space.
Notation body := (body concat_space).

Section EInd.
  Variable Q : elem -> Prop.
  Hypothesis HE : forall a kids, Forall Q kids -> Q (E a kids).
  Fixpoint elem_rect' (e : elem) : Q e :=
    let all := fix all (l : list elem) : Forall Q l :=
      match l with [] => Forall_nil Q | y :: r => @Forall_cons _ Q y r (elem_rect' y) (all r) end in
    match e with E a kids => HE a kids (all kids) end.
End EInd.

Lemma writes_points e : writes e -> forall ps, points concat_space e = Ok ps -> ps <> [].
Proof.
  induction e as [a kids IH] using elem_rect'. intros W ps P. rewrite points_body in P.
  destruct (head_point a kids) as [hp|] eqn:HP; [|discriminate]. cbn [bindr] in P.
  destruct (body a (tail_point a) kids) as [b|] eqn:B; [|discriminate]. cbn [bindr] in P. injection P as <-.
  inversion W as [? ? K|? ? k I WK]; subst.
  - unfold head_point in HP. destruct (a_kind a); [congruence| |];
      (destruct (match a_head_origin a with None => _ | Some _ => _ end) as [s|]; [|discriminate]; cbn [bindr] in HP; injection HP as <-; discriminate).
  - assert (N : b <> []); [|intros E; apply app_eq_nil in E; destruct E as [_ E]; apply app_eq_nil in E; tauto].
    clear W HP. revert b B I. induction kids as [|x kids IHk]; intros b B I; [destruct I|]. inversion IH as [|? ? IHx IHr]; subst.
    destruct kids as [|y kids].
    + rewrite body_one in B. destruct (points concat_space x) as [ps|] eqn:PX; [|discriminate]. cbn [bindr] in B. injection B as <-.
      destruct I as [->|[]]. specialize (IHx WK ps eq_refl). destruct (tail_point a); [exact IHx|]. intros E. now apply collapse_last_empty in E.
    + rewrite body_more in B. destruct (points concat_space x) as [ps|] eqn:PX; [|discriminate]. cbn [bindr] in B.
      destruct (body a (tail_point a) (y :: kids)) as [rest|] eqn:BR; [|discriminate]. cbn [bindr] in B. injection B as <-.
      intros E. apply app_eq_nil in E. destruct E as [E1 E2]. destruct I as [->|I].
      * apply collapse_last_empty in E1. now apply (IHx WK ps eq_refl).
      * now apply (IHk IHr rest eq_refl I).
Qed.

Lemma body_points a tp n r b : body a tp (n :: r) = Ok b -> exists ps, points concat_space n = Ok ps.
Proof.
  destruct r; [rewrite body_one|rewrite body_more]; destruct (points concat_space n) as [ps|]; try discriminate; intros _; now exists ps.
Qed.

Lemma pruned_id e e' : pruned e e' -> attrs_of e' = attrs_of e.
Proof. now destruct 1. Qed.

(** The space after the last child. *)
Definition last_space (a : attrs) (tp : option point) : str := match tp with None => a_after a | Some _ => [] end.
Lemma body_last a tp n : body a tp [n] = let! ps := points concat_space n in Ok (collapse_last ps (last_space a tp)).
Proof. rewrite body_one. destruct (points concat_space n) as [ps|]; [|reflexivity]. cbn [bindr]. destruct tp; cbn [last_space]; [now rewrite collapse_last_nothing|reflexivity]. Qed.

Lemma pruned_points :
  (forall e e', pruned e e' -> forall ps, points concat_space e = Ok ps -> exists ps' b, points concat_space e' = Ok ps' /\ sub false b ps ps') /\
  (forall r r', pruned_all r r' -> forall a tp b0, body a tp r = Ok b0 ->
    exists b0' b, body a tp r' = Ok b0' /\ sub false b b0 b0' /\
      (b = true \/ (r = [] /\ r' = []) \/ exists e r1 e' r1', r = e :: r1 /\ r' = e' :: r1' /\ pruned e e')).
Proof.
  apply pruned_mutind.
  - intros a kids kids' PA IH ps P. rewrite points_body in P.
    destruct (head_point a kids) as [hp|] eqn:HP; [|discriminate]. cbn [bindr] in P.
    destruct (body a (tail_point a) kids) as [b0|] eqn:B; [|discriminate]. cbn [bindr] in P. injection P as <-.
    destruct (IH a (tail_point a) b0 B) as (b0' & b & B' & SB & FLAG). rewrite points_body, B'.
    assert (X : exists hp', head_point a kids' = Ok hp' /\ sub b (match hp with None => b | Some _ => false end) (opt_list hp) (opt_list hp')).
    { unfold head_point in *. destruct (a_kind a) eqn:K.
      - injection HP as <-. exists None. split; [reflexivity|constructor].
      - destruct (match a_head_origin a with None => _ | Some _ => _ end) as [s|]; [|discriminate]. cbn [bindr] in *. injection HP as <-.
        eexists. split; [reflexivity|]. cbn [opt_list]. apply (sub_keep b b); [repeat split| |constructor].
        cbn [p_after]. intros ->. destruct FLAG as [F|[[-> ->]|(e & r1 & e' & r1' & -> & -> & _)]]; [discriminate|reflexivity|reflexivity].
      - destruct (match a_head_origin a with None => _ | Some _ => _ end) as [s|]; [|discriminate]. cbn [bindr] in *. injection HP as <-.
        eexists. split; [reflexivity|]. cbn [opt_list]. apply (sub_keep b b); [repeat split| |constructor].
        cbn [p_after]. intros ->. destruct FLAG as [F|[[-> ->]|(e & r1 & e' & r1' & -> & -> & _)]]; [discriminate|reflexivity|reflexivity]. }
    destruct X as (hp' & HP' & SH). rewrite HP'. cbn [bindr]. do 2 eexists. split; [reflexivity|].
    eapply sub_app; [exact SH|]. apply (sub_app false b false); [exact SB|].
    destruct (tail_point a) as [t|]; cbn [opt_list]; [|constructor]. apply (sub_keep false false); [apply same_text_refl|reflexivity|constructor].
  - intros a tp b0 B. injection B as <-. exists [], false. split; [reflexivity|]. split; [constructor|]. right. left. now split.
  - intros e e' r r' PE IHe PR IHr a tp b0 B.
    destruct (body_points _ _ _ _ _ B) as (ps & PS). destruct (IHe ps PS) as (ps' & be & PS' & SE).
    destruct r as [|m r].
    + inversion PR; subst. rewrite body_last, PS in B. cbn [bindr] in B. injection B as <-. rewrite body_last, PS'. cbn [bindr].
      exists (collapse_last ps' (last_space a tp)), be. split; [reflexivity|]. split; [now apply sub_collapse|].
      right. right. now exists e, [], e', [].
    + rewrite body_more, PS in B. cbn [bindr] in B.
      destruct (body a tp (m :: r)) as [rest|] eqn:BR; [|discriminate]. cbn [bindr] in B. injection B as <-.
      destruct (IHr a tp rest BR) as (rest' & b & BR' & SR & FLAG).
      assert (W : exists w, body a tp (e' :: r') = Ok (collapse_last ps' w ++ rest') /\ (b = false -> w = concat_space a e m)).
      { destruct r' as [|m' r'].
        - rewrite body_last, PS'. cbn [bindr]. cbn in BR'. injection BR' as <-. exists (last_space a tp). rewrite app_nil_r. split; [reflexivity|].
          intros ->. destruct FLAG as [F|[[F _]|(x & r1 & x' & r1' & _ & F & _)]]; discriminate.
        - rewrite body_more, PS', BR'. cbn [bindr]. eexists. split; [reflexivity|]. intros ->.
          destruct FLAG as [F|[[F _]|(x & r1 & x' & r1' & F1 & F2 & F3)]]; [discriminate|discriminate|].
          injection F1 as <- <-. injection F2 as <- <-. apply BT; try reflexivity; now rewrite (pruned_id _ _ PE) || rewrite (pruned_id _ _ F3). }
      destruct W as (w & -> & W).
      assert (F : exists e0 r1 e1 r1', e :: m :: r = e0 :: r1 /\ e' :: r' = e1 :: r1' /\ pruned e0 e1) by now exists e, (m :: r), e', r'.
      destruct b.
      * do 2 eexists. split; [reflexivity|]. split; [|right; right; exact F].
        eapply sub_app; [|exact SR]. apply sub_collapse; [exact (sub_weaken _ _ _ SE)|discriminate].
      * do 2 eexists. split; [reflexivity|]. split; [|right; right; exact F].
        eapply sub_app; [|exact SR]. apply sub_collapse; [exact SE|exact W].
  - intros e r r' WE PR IHr a tp b0 B.
    destruct (body_points _ _ _ _ _ B) as (ps & PS). pose proof (writes_points e WE ps PS) as NE.
    assert (ALL : forall A b B', A <> [] -> forall rest, sub false b rest B' -> sub false true (A ++ rest) B').
    { induction A as [|p A IHA]; intros b B' N rest S; [congruence|]. cbn [app]. destruct A as [|q A].
      - exact (sub_drop false b _ _ _ S).
      - apply (sub_drop false true). apply (IHA b); [discriminate|exact S]. }
    destruct r as [|m r].
    + inversion PR; subst. rewrite body_last, PS in B. cbn [bindr] in B. injection B as <-. exists [], true. split; [reflexivity|]. split; [|now left].
      rewrite <- (app_nil_r (collapse_last ps _)). apply (ALL _ false); [|constructor]. intros E. now apply collapse_last_empty in E.
    + rewrite body_more, PS in B. cbn [bindr] in B.
      destruct (body a tp (m :: r)) as [rest|] eqn:BR; [|discriminate]. cbn [bindr] in B. injection B as <-.
      destruct (IHr a tp rest BR) as (rest' & b & BR' & SR & _). exists rest', true. split; [exact BR'|]. split; [|now left].
      apply (ALL _ b); [|exact SR]. intros E. now apply collapse_last_empty in E.
Qed.
End Trees.

Section Loop.
Variable all : list token.
Hypothesis ordered : tokens_from 0 all.

(** The tokens up to a point that is kept. *)
Lemma skip_to used toks pos i : all = used ++ toks -> (forall t, In t used -> t_end t <= pos) -> pos < i -> (exists t, In t all /\ t_pos t = i) ->
  exists d used' toks', skip_tokens toks i pos pos = (toks', i, d) /\ all = used' ++ toks' /\
    (forall t, In t used' -> t_end t <= i \/ t_pos t = i) /\
    (d = pos \/ exists t, In t all /\ t_end t = d /\ t_end t <= i) /\
    (forall t, In t all -> pos < t_end t -> t_pos t < i -> t_end t <= d).
Proof.
  intros A U L (t & I & P).
  assert (T : exists t, In t toks /\ t_pos t = i).
  { rewrite A in I. apply in_app_iff in I. destruct I as [I|I]; [|eauto]. specialize (U t I).
    assert (t_pos t < t_end t) by (apply (tokens_from_in all 0); [exact ordered|rewrite A; apply in_or_app; auto]). lia. }
  destruct (skip_tokens_spec all ordered toks used i pos pos A T) as (sk & t1 & rest & E1 & E2 & E3 & E4).
  set (d := match rev sk with [] => pos | x :: _ => t_end x end) in *.
  assert (AA : all = (used ++ sk ++ [t1]) ++ rest) by (rewrite A, E1, <- !app_assoc; reflexivity).
  exists d, (used ++ sk ++ [t1]), rest. split; [exact E4|]. split; [exact AA|]. split.
  { intros y J. rewrite !in_app_iff in J. destruct J as [J|[J|[<-|[]]]]; [specialize (U y J); lia|left; auto|now right]. }
  pose proof ordered as O. rewrite A, E1 in O. apply tokens_from_app in O. destruct O as (_ & O & _).
  apply tokens_from_app in O. destruct O as (O1 & _ & O3).
  split.
  { unfold d. destruct (rev sk) as [|z r] eqn:RV; [now left|]. right. exists z.
    assert (IZ : In z sk) by (rewrite in_rev, RV; left; reflexivity).
    split; [rewrite A, E1, !in_app_iff; auto|]. split; [reflexivity|auto]. }
  intros y J LY PY. rewrite A, E1, !in_app_iff in J. destruct J as [J|[J|J]]; [specialize (U y J); lia| |].
  - unfold d. destruct (rev sk) as [|z r] eqn:RV; [rewrite in_rev, RV in J; destruct J|].
    assert (SK : sk = rev r ++ [z]) by (rewrite <- (rev_involutive sk), RV; reflexivity).
    rewrite SK in J, O1. apply in_app_iff in J. destruct J as [J|[<-|[]]]; [|reflexivity].
    apply tokens_from_app in O1. destruct O1 as (_ & O5 & O6). specialize (O6 y z J (or_introl eq_refl)).
    pose proof (tokens_from_in _ _ z O5 (or_introl eq_refl)). lia.
  - cbn [In] in J. destruct J as [<-|J]; [lia|].
    pose proof ordered as O7. rewrite AA in O7. apply tokens_from_app in O7. destruct O7 as (_ & _ & O8).
    specialize (O8 t1 y). rewrite !in_app_iff in O8. specialize (O8 ltac:(right; right; left; reflexivity) J).
    assert (t_pos t1 < t_end t1) by (apply (tokens_from_in all 0); [exact ordered|rewrite AA, !in_app_iff; left; right; right; left; reflexivity]). lia.
Qed.

(** [from] is the end of the last point of the original, [pos] that of the last one
    that is kept. *)
Lemma cuts_spec stop : forall b ps ps', sub false b ps ps' -> forall used toks pos from a a' gone,
  all = used ++ toks -> (forall t, In t used -> t_end t <= pos) -> cuts_no_token all from ->
  placed all from ps -> untouched all from a ps -> whole_tokens all ps -> stop <= last_end from ps ->
  match gone with
  | None => from = pos /\ (b = false -> a' = a)
  | Some e => e = from /\ pos < e /\ exists t, In t all /\ t_end t = e
  end ->
  exists cs, edits_loop ps' toks pos stop a' = Ok cs /\ cuts stop pos a' gone ps ps' cs.
Proof.
  induction 1 as [|b p p' ps ps' (S1 & S2 & S3 & S4) H R IH|b p ps ps' R IH]; intros used toks pos from a a' gone A U CF PL UN WT LE G.
  - cbn [edits_loop last_end] in *. destruct gone as [e|].
    + eexists. split; [reflexivity|]. constructor.
    + destruct G as [-> _]. destruct (Nat.ltb_spec pos stop); [lia|]. exists []. split; [reflexivity|constructor].
  - cbn [placed untouched last_end] in *. pose proof (Forall_inv WT) as W1; pose proof (Forall_inv_tail WT) as WT'. cbn beta in W1.
    destruct (p_span p) as [[i j]|] eqn:SP; [|destruct UN].
    destruct PL as (P1 & P2 & P3 & P4 & P5). destruct UN as (U1 & U2 & U3 & U4).
    assert (NEXT : forall used' toks', all = used' ++ toks' -> (forall t, In t used' -> t_end t <= j) ->
      exists cs, edits_loop ps' toks' j stop (p_after p') = Ok cs /\ cuts stop j (p_after p') None ps ps' cs).
    { intros used' toks' A' U'. apply (IH used' toks' j j (p_after p) (p_after p') None); auto. }
    cbn [edits_loop]. rewrite S1, S3, U1, S4.
    destruct (Nat.ltb_spec pos i) as [L|L].
    + destruct (skip_to used toks pos i A U L P3) as (d & used' & toks' & E1 & E2 & E3 & E4 & E5). rewrite E1.
      destruct (NEXT used' toks' E2) as (cs & C1 & C2).
      { intros t I. destruct (E3 t I) as [X|X]; [lia|]. destruct (P4 t); [rewrite E2; apply in_app_iff; now left|assumption|lia]. }
      rewrite C1. cbn [bindr].
      destruct gone as [e|].
      * destruct G as (-> & PE & te & IT & ET).
        assert (D : d = from).
        { assert (from <= d).
          { rewrite <- ET. apply E5; [exact IT|lia|]. pose proof (tokens_from_in _ _ _ ordered IT). lia. }
          destruct E4 as [E4|(z & IZ & EZ & EL)]; [lia|]. destruct (CF z IZ) as [C|C]; [lia|].
          exfalso. apply (U3 z IZ C). pose proof (tokens_from_in _ _ _ ordered IZ). lia. }
        subst d. destruct (Nat.ltb_spec pos from); [|lia].
        exists (Change pos (match collapse_whitespace [a'; p_before p] with [] => from | _ => i end) (collapse_whitespace [a'; p_before p]) :: cs). split.
        { cbn [app]. do 3 f_equal. destruct (collapse_whitespace [a'; p_before p]); cbn [truthy andb]; [reflexivity|].
          destruct (Nat.ltb_spec from i); lia. }
        apply (cuts_keep_gone stop pos a' from p p' ps ps' cs i j); auto; [repeat split; congruence|apply strongest_collapse].
      * destruct G as [-> G].
        assert (D : d <= pos).
        { destruct E4 as [E4|(z & IZ & EZ & EL)]; [lia|]. destruct (CF z IZ) as [C|C]; [lia|].
          exfalso. apply (U3 z IZ C). pose proof (tokens_from_in _ _ _ ordered IZ). lia. }
        destruct (Nat.ltb_spec pos d); [lia|]. exists cs. split; [reflexivity|].
        apply (cuts_keep stop pos a' p p' ps ps' cs i j); auto. repeat split; congruence.
    + destruct gone as [e|]; [destruct G as (-> & PE & _); lia|]. destruct G as [-> G]. assert (pos = i) by lia. subst i.
      rewrite (G eq_refl), (strongest_unique _ _ _ (strongest_collapse [a; p_before p]) (U2 eq_refl)). cbn [truthy].
      destruct (NEXT used toks A) as (cs & C1 & C2); [intros t I; specialize (U t I); lia|]. rewrite C1. cbn [bindr app].
      exists cs. split; [reflexivity|]. apply (cuts_keep stop pos a p p' ps ps' cs pos j); auto. repeat split; congruence.
  - cbn [placed untouched last_end] in *. pose proof (Forall_inv WT) as W1; pose proof (Forall_inv_tail WT) as WT'. cbn beta in W1.
    destruct (p_span p) as [[i j]|] eqn:SP; [|destruct UN].
    destruct PL as (P1 & P2 & P3 & P4 & P5). destruct UN as (U1 & U2 & U3 & U4).
    assert (PF : pos <= from) by (destruct gone as [e|]; [destruct G as (-> & ? & _)|destruct G as [-> _]]; lia).
    destruct (IH used toks pos j (p_after p) a' (Some j) A U P4 P5 U4 WT' LE) as (cs & C1 & C2).
    { split; [reflexivity|]. split; [lia|]. exact (W1 i j eq_refl). }
    exists cs. split; [exact C1|]. apply (cuts_drop stop pos a' gone p ps ps' cs i j); auto.
Qed.

Lemma cuts_order stop : forall pos a gone ps ps' cs, cuts stop pos a gone ps ps' cs -> forall from,
  placed all from ps -> stop <= last_end from ps ->
  match gone with None => from = pos | Some e => e = from /\ pos <= e end ->
  in_order pos cs /\ Forall (fun c => c_end c <= last_end from ps) cs.
Proof.
  induction 1 as [pos a|pos a e|pos a p p' ps ps' cs i j S T C IH|pos a e p p' ps ps' cs i j s S T ST C IH|pos a gone p ps ps' cs i j S C IH]; intros from PL LE G.
  - cbn. auto.
  - cbn [last_end] in *. destruct (Nat.ltb_spec pos stop); [|cbn; auto]. cbn [in_order c_pos c_end]. repeat split; try lia. repeat constructor. cbn. lia.
  - cbn [placed last_end] in *. rewrite S in *. destruct PL as (P1 & P2 & P3 & P4 & P5). subst from.
    destruct (IH j P5 LE eq_refl) as [O F]. split; [|exact F]. apply (in_order_mono _ _ j); [lia|exact O].
  - cbn [placed last_end] in *. rewrite S in *. destruct PL as (P1 & P2 & P3 & P4 & P5). destruct G as [-> G].
    destruct (IH j P5 LE eq_refl) as [O F]. pose proof (last_end_ge _ _ _ P5). split.
    + cbn [in_order c_pos c_end]. repeat split; [lia|destruct s; lia|]. apply (in_order_mono _ _ j); [destruct s; lia|exact O].
    + constructor; [|exact F]. cbn [c_end]. destruct s; lia.
  - cbn [placed last_end] in *. rewrite S in *. destruct PL as (P1 & P2 & P3 & P4 & P5).
    apply (IH j P5 LE). split; [reflexivity|]. destruct gone as [e|]; [destruct G as [-> G]|]; lia.
Qed.
End Loop.

(** ** Theorems *)

(** Some elements are removed from a document that was not modified: their text is
    deleted, and nothing else but the whitespace next to it. *)
Theorem C131_removed : forall concat_space e e' ps d context start end_,
  let x := match context with Some x => x | None => d_root d end in
  let pos := match start with Some s => s | None => x_pos x end in
  let stop := match end_ with Some s => s | None => x_end x end in
  d_pending d = [] -> by_type concat_space -> points concat_space e = Ok ps ->
  tokens_from 0 (x_tokens x) -> cuts_no_token (x_tokens x) pos -> placed (x_tokens x) pos ps ->
  untouched (x_tokens x) pos [] ps -> whole_tokens (x_tokens x) ps -> stop <= last_end pos ps -> last_end pos ps <= List.length (d_text d) ->
  pruned e e' ->
  exists ps' cs, points concat_space e' = Ok ps' /\ cuts stop pos [] None ps ps' cs /\ in_order 0 cs /\
    edit concat_space e' d context start end_ = (Doc (apply_changes (d_text d) 0 cs) (d_root d) [], Ok (List.length cs)).
Proof.
  intros cs0 e e' ps [text root pend] ctx start end_ x pos stop PE BT P T C PL U WT L LT PR. cbn [d_pending d_text d_root] in *. subst pend.
  destruct (proj1 (pruned_points cs0 BT) e e' PR ps P) as (ps' & b & P' & SB).
  destruct (cuts_spec (x_tokens x) T stop b ps ps' SB [] (x_tokens x) pos pos [] [] None) as (cs & E & CU); auto.
  { intros t []. }
  destruct (cuts_order (x_tokens x) stop _ _ _ _ _ _ CU pos PL L eq_refl) as [O F].
  assert (O' : in_order 0 cs) by (apply (in_order_mono _ _ pos); [lia|exact O]).
  exists ps', cs. split; [exact P'|]. split; [exact CU|]. split; [exact O'|].
  unfold edit. cbn [d_root]. fold x. unfold edits. fold pos stop. rewrite P'. cbn [bindr]. rewrite E, loop_spec.
  unfold leave. cbn [d_text d_pending d_root Nat.add]. do 2 f_equal. rewrite app_nil_r. apply (splice_all cs text 0); [exact O'|lia|].
  revert F. apply Forall_impl. intros c H. cbn beta in H. lia.
Qed.
Print Assumptions C131_removed.

(** [{ c4-. d4], a new line, [ e }]: both durations are removed.  After the [c] no
    space is wanted, so only the [4] goes; after the [d] a space is wanted, which also
    replaces the line break (a finding). *)
Local Open Scope string_scope. Local Open Scope list_scope.
Definition rx_text : str := txt ("{ c4-. d4" ++ ex_newline ++ " e }")%string.
Definition rx_tokens : list token := [Tok 0 1; Tok 2 3; Tok 3 4; Tok 4 6; Tok 7 8; Tok 8 9; Tok 11 12; Tok 13 14].
Definition rx_block (kids : list elem) : elem :=
  E (Attrs Block 0 (Ok (txt "{")) (txt "}") (Some [Tok 0 1]) (Some [Tok 13 14]) false false [] (txt " ") (txt " ") (txt " ") []) kids.
Definition rx_c (d : list elem) : elem := ex_leaf 1 "c" (Some (Tok 2 3)) false (d ++ [ex_leaf 4 "-." (Some (Tok 4 6)) false [] ""]) "".
Definition rx_d (d : list elem) : elem := ex_leaf 1 "d" (Some (Tok 7 8)) false d "".
Definition rx_e : elem := ex_leaf 1 "e" (Some (Tok 11 12)) false [] "".
Definition rx_four (i : nat) : elem := ex_leaf 3 "4" (Some (Tok i (i + 1))) false [] "".
Definition rx_before : elem := rx_block [rx_c [rx_four 3]; rx_d [rx_four 8]; rx_e].
Definition rx_after : elem := rx_block [rx_c []; rx_d []; rx_e].

Example C131_witness :
  (exists ps, points concat_default rx_before = Ok ps /\ by_type concat_default /\
    tokens_from 0 rx_tokens /\ cuts_no_token rx_tokens 0 /\ placed rx_tokens 0 ps /\ untouched rx_tokens 0 [] ps /\
    whole_tokens rx_tokens ps /\ last_end 0 ps = 14) /\
  pruned rx_before rx_after.
Proof.
  split.
  - eexists. split; [vm_compute; reflexivity|]. split; [intros a a' n n' m m' _ H _ _; exact H|].
    split; [cbn; lia|]. split; [intros t _; right; lia|]. split.
    { cbn -[cuts_no_token In].
      repeat match goal with
      | |- _ /\ _ => split
      | |- exists t, In t rx_tokens /\ t_pos t = ?i =>
          first [exists (Tok i (i+1)); split; [cbn; tauto|reflexivity]|exists (Tok 4 6); split; [cbn; tauto|reflexivity]]
      | |- cuts_no_token _ _ => intros t I; cbn in I; repeat destruct I as [<-|I]; cbn; try lia; destruct I
      | |- _ <= _ => lia
      | |- _ < _ => lia
      | |- True => exact I
      end. }
    split.
    { cbn -[strongest In].
      repeat match goal with
      | |- _ /\ _ => split
      | |- _ = false => reflexivity
      | |- True => exact I
      | |- _ = _ -> strongest ?l [] => intros E; try discriminate E; exact (strongest_collapse l)
      | |- forall t, In t _ -> _ => intros t I; cbn in I; repeat destruct I as [<-|I]; cbn; try lia; destruct I
      end. }
    split; [|reflexivity].
    repeat (apply Forall_cons; [intros i j [= <- <-];
      first [exists (Tok 4 6); split; [cbn; tauto|reflexivity]
            |match goal with |- exists t, _ /\ t_end t = ?j => exists (Tok (j - 1) j); split; [cbn; tauto|reflexivity] end]|]).
    constructor.
  - assert (W : forall i, writes (rx_four i)) by (intros i; apply writes_head; discriminate).
    assert (L : forall id t o after, pruned (ex_leaf id t o false [] after) (ex_leaf id t o false [] after)) by (intros; apply pruned_node, pruned_nil).
    apply pruned_node. apply pruned_keep; [|apply pruned_keep; [|apply pruned_keep; [apply L|apply pruned_nil]]].
    + apply pruned_node. apply pruned_drop; [apply W|]. apply pruned_keep; [apply L|apply pruned_nil].
    + apply pruned_node. apply pruned_drop; [apply W|apply pruned_nil].
Qed.

(** Removing a duration joins the line with the next one. *)
Theorem C131_line_finding :
  edit concat_default rx_after (Doc rx_text (Context 0 14 rx_tokens) []) None None None
  = (Doc (txt "{ c-. d e }") (Context 0 14 rx_tokens) [], Ok 2).
Proof. vm_compute. reflexivity. Qed.
Print Assumptions C131_line_finding.
