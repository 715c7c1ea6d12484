(** Property C133: any edit of a tree: texts changed, elements added, elements removed. *)
From Coq Require Import String Ascii List Arith PeanoNat Bool Lia.
From Verif Require Import Base Element_Model Element_Spec Element_Proofs Element_Edits Element_Props Writeback_Model Writeback_Props Writeback_Local Writeback_Remove.
Import ListNotations.

(** ** Specification *)

(** A new element: neither it nor one of its children comes from the source, and
    it can be written. *)
Inductive brand_new : elem -> Prop :=
| brand_new_node a kids t : a_head_origin a = None -> a_tail_origin a = None -> a_head a = Ok t -> Forall brand_new kids -> brand_new (E a kids).

(** An element of the same kind, from the same place in the source; a head that was
    modified can be written. *)
Definition same_origin (a a' : attrs) : Prop :=
  a_kind a' = a_kind a /\ a_head_origin a' = a_head_origin a /\ a_tail_origin a' = a_tail_origin a /\
  (a_head_modified a' = true -> exists t, a_head a' = Ok t).

(** The tree [e'] is [e] with some attributes changed (as texts and spacing), some
    elements removed, alone or with their children, and new ones added at any
    place, also around others.  The elements that stay are in the same order. *)
Inductive reworked : elem -> elem -> Prop :=
| reworked_node a a' kids kids' : same_origin a a' -> reworked_all kids kids' -> reworked (E a kids) (E a' kids')
with reworked_all : list elem -> list elem -> Prop :=
| reworked_nil : reworked_all [] []
| reworked_keep e e' r r' : reworked e e' -> reworked_all r r' -> reworked_all (e :: r) (e' :: r')
| reworked_drop e r r' : reworked_all r r' -> reworked_all (e :: r) r'
| reworked_add n r r' : brand_new n -> reworked_all r r' -> reworked_all r (n :: r')
| reworked_unwrap a kids kids' r r' : reworked_all kids kids' -> reworked_all r r' -> reworked_all (E a kids :: r) (kids' ++ r')
| reworked_wrap a t l kids r r' : a_head_origin a = None -> a_tail_origin a = None -> a_head a = Ok t ->
    reworked_all l kids -> reworked_all r r' -> reworked_all (l ++ r) (E a kids :: r').

(** An element that was changed to have the head [text]. *)
Definition retexted (a a' : attrs) (text : str) : Prop :=
  a_kind a' = a_kind a /\ a_head_origin a' = a_head_origin a /\ a_tail_origin a' = a_tail_origin a /\ a_head a' = Ok text /\
  (a_head_modified a' = true /\ a_tail a' = a_tail a /\ a_tail_modified a' = a_tail_modified a).
(** An element that is new. *)
Definition fresh (a : attrs) (text : str) : Prop := a_head_origin a = None /\ a_tail_origin a = None /\ a_head a = Ok text /\
  a_head_modified a = false /\ a_tail_modified a = false.

Scheme reworked_ind2 := Induction for reworked Sort Prop
with reworked_all_ind2 := Induction for reworked_all Sort Prop.
Combined Scheme reworked_mutind from reworked_ind2, reworked_all_ind2.

(** What happens to a text that is kept, at [i] to [j] in the source. *)
Inductive kept_text (p' : point) (i j : nat) : list change -> Prop :=
| kept_same : p_modified p' = false -> kept_text p' i j []
| kept_set t : p_modified p' = true -> p_text p' = Ok t -> kept_text p' i j [Change i j t].

(** [worked stop pos after gone ps ps' cs]: the texts [ps], which are in the source,
    become [ps'].  The last text that is kept ends at [pos] in the source; the last
    text written (which may be a new one) wants the space [after] after it; [gone]
    is the end of the last removed text since [pos], if there is one.  [cs] are the
    changes:
    - a text that is kept is replaced in its place if it was modified;
    - between two texts next to each other that are both kept, nothing
      changes, unless they touch and now want a space;
    - where texts were removed between two texts that are kept: if space is
      wanted there, it replaces all that is between the two; if no space is
      wanted, the text is deleted up to the end of the last removed one;
    - a new text is inserted right after the last text that is kept, after the
      space that is wanted, which is the strongest of what the two texts want. *)
Inductive worked (stop : nat) : nat -> str -> option nat -> list point -> list point -> list change -> Prop :=
| worked_end pos after : worked stop pos after None [] [] []
| worked_end_gone pos after e : worked stop pos after (Some e) [] [] (if pos <? stop then [Change pos stop []] else [])
| worked_keep pos after p p' ps ps' i j s c cs : p_span p = Some (i, j) -> p_span p' = Some (i, j) -> kept_text p' i j c ->
    strongest [after; p_before p'] s -> worked stop j (p_after p') None ps ps' cs ->
    worked stop pos after None (p :: ps) (p' :: ps')
      ((if pos =? i then match s with [] => [] | _ => [Change i i s] end else []) ++ c ++ cs)
| worked_keep_gone pos after e p p' ps ps' i j s c cs : p_span p = Some (i, j) -> p_span p' = Some (i, j) -> kept_text p' i j c ->
    strongest [after; p_before p'] s -> worked stop j (p_after p') None ps ps' cs ->
    worked stop pos after (Some e) (p :: ps) (p' :: ps') (Change pos (match s with [] => e | _ => i end) s :: c ++ cs)
| worked_drop pos after gone p ps ps' cs i j : p_span p = Some (i, j) ->
    worked stop pos after (Some j) ps ps' cs -> worked stop pos after gone (p :: ps) ps' cs
| worked_new pos after gone q t s ps ps' cs : p_span q = None -> p_text q = Ok t -> t <> [] -> strongest [after; p_before q] s ->
    worked stop pos (p_after q) gone ps ps' cs -> worked stop pos after gone ps (q :: ps') (Change pos pos (s ++ t) :: cs)
| worked_empty pos after gone q ps ps' cs : p_span q = None -> p_text q = Ok [] ->
    worked stop pos after gone ps ps' cs -> worked stop pos after gone ps (q :: ps') cs.

(** ** Proofs *)

Lemma reworked_app l l' : reworked_all l l' -> forall r r', reworked_all r r' -> reworked_all (l ++ r) (l' ++ r').
Proof.
  induction 1; intros u u' V; cbn [app]; [exact V|constructor; auto|constructor; auto|constructor; auto| |].
  - rewrite <- app_assoc. apply reworked_unwrap; auto.
  - rewrite <- app_assoc. eapply reworked_wrap; eauto.
Qed.
Lemma same_origin_refl a : a_head_modified a = false -> same_origin a a.
Proof. intros M. repeat split. rewrite M. discriminate. Qed.
Lemma retexted_origin a a' t : retexted a a' t -> same_origin a a'.
Proof. intros (R1 & R2 & R3 & R4 & R5). repeat split; auto. intros _. now exists t. Qed.

Inductive mixed : list point -> list point -> Prop :=
| mixed_nil : mixed [] []
| mixed_keep p p' ps ps' : p_span p' = p_span p -> (p_modified p' = true -> exists t, p_text p' = Ok t) ->
    mixed ps ps' -> mixed (p :: ps) (p' :: ps')
| mixed_drop p ps ps' : mixed ps ps' -> mixed (p :: ps) ps'
| mixed_new q t ps ps' : p_span q = None -> p_text q = Ok t -> mixed ps ps' -> mixed ps (q :: ps').

Lemma mixed_app A A' : mixed A A' -> forall B B', mixed B B' -> mixed (A ++ B) (A' ++ B').
Proof. induction 1; intros B B' H2; cbn [app]; [exact H2| | |]; econstructor; eauto. Qed.

Definition alike (p q : point) : Prop := p_span q = p_span p /\ p_text q = p_text p /\ p_modified q = p_modified p.
Lemma collapse_alike ps w : Forall2 alike ps (collapse_last ps w).
Proof.
  induction ps as [|p [|q ps] IH]; [constructor|repeat constructor|].
  change (Forall2 alike (p :: q :: ps) (p :: collapse_last (q :: ps) w)). constructor; [repeat constructor|exact IH].
Qed.
Lemma mixed_alike A A' : mixed A A' -> forall B B', Forall2 alike A B -> Forall2 alike A' B' -> mixed B B'.
Proof.
  induction 1 as [|p p' ps ps' S M H IH|p ps ps' H IH|q t ps ps' S T H IH]; intros B B' F F'.
  - inversion F; inversion F'; subst. constructor.
  - inversion F as [|? ? ? ? (X1 & X2 & X3) FX]; inversion F' as [|? ? ? ? (Y1 & Y2 & Y3) FY]; subst. apply mixed_keep; [congruence| |auto].
    rewrite Y3, Y2. exact M.
  - inversion F as [|? ? ? ? (X1 & X2 & X3) FX]; subst. apply mixed_drop. auto.
  - inversion F' as [|? ? ? ? (Y1 & Y2 & Y3) FY]; subst. apply (mixed_new _ t); [congruence|congruence|auto].
Qed.
Lemma mixed_collapse A A' w w' : mixed A A' -> mixed (collapse_last A w) (collapse_last A' w').
Proof. intros H. apply (mixed_alike A A' H); apply collapse_alike. Qed.
Lemma mixed_gone A : mixed A [].
Proof. induction A; constructor; assumption. Qed.

Section Trees.
Variable concat_space : attrs -> elem -> elem -> str.
Notation body := (body concat_space).

Lemma new_ends a kids t : a_head_origin a = None -> a_tail_origin a = None -> a_head a = Ok t ->
  exists hp, head_point a kids = Ok hp /\ mixed [] (opt_list hp) /\ mixed [] (opt_list (tail_point a)).
Proof.
  intros O1 O2 H. unfold head_point, tail_point. rewrite O1, O2.
  destruct (a_kind a); cbn [bindr]; eexists; (split; [reflexivity|]); cbn [opt_list]; split; try constructor;
    first [apply (mixed_new _ t); [reflexivity|exact H|constructor]|apply (mixed_new _ (a_tail a)); [reflexivity|reflexivity|constructor]].
Qed.

Lemma brand_new_points e : brand_new e -> exists ps, points concat_space e = Ok ps /\ mixed [] ps.
Proof.
  induction e as [a kids IH] using elem_rect'. intros N. inversion N as [? ? t O1 O2 H NK]; subst.
  assert (X : forall tp, exists b, body a tp kids = Ok b /\ mixed [] b).
  { intros tp. clear N. induction kids as [|k kids IHk]; [exists []; split; [reflexivity|constructor]|].
    inversion IH as [|? ? IK IR]; subst. inversion NK as [|? ? NKk NR]; subst. destruct (IK NKk) as (ps & P & M).
    destruct kids as [|m kids].
    - rewrite body_last, P. cbn [bindr]. eexists. split; [reflexivity|]. exact (mixed_collapse [] ps [] _ M).
    - destruct (IHk IR NR) as (b & B & MB). rewrite body_more, P, B. cbn [bindr]. eexists. split; [reflexivity|].
      exact (mixed_app [] _ (mixed_collapse [] ps [] _ M) [] b MB). }
  destruct (X (tail_point a)) as (b & B & MB). rewrite points_body, B.
  destruct (new_ends a kids t O1 O2 H) as (hp & HP & MH & MT). rewrite HP. cbn [bindr]. eexists. split; [reflexivity|].
  apply (mixed_app [] _ MH []). exact (mixed_app [] _ MB [] _ MT).
Qed.

Lemma body_cons a tp e r b : body a tp (e :: r) = Ok b ->
  exists ps w rest, points concat_space e = Ok ps /\ body a tp r = Ok rest /\ b = collapse_last ps w ++ rest.
Proof.
  intros B. destruct (body_points _ _ _ _ _ _ B) as (ps & PS). destruct r as [|m r].
  - rewrite body_last, PS in B. cbn [bindr] in B. injection B as <-. exists ps, (last_space a tp), []. now rewrite app_nil_r.
  - rewrite body_more, PS in B. cbn [bindr] in B. destruct (body a tp (m :: r)) as [rest|]; [|discriminate]. cbn [bindr] in B. injection B as <-. eauto 6.
Qed.
Lemma cons_body a tp e r ps rest : points concat_space e = Ok ps -> body a tp r = Ok rest ->
  exists w, body a tp (e :: r) = Ok (collapse_last ps w ++ rest).
Proof.
  intros PS BR. destruct r as [|m r].
  - rewrite body_last, PS. cbn [bindr]. cbn in BR. injection BR as <-. exists (last_space a tp). now rewrite app_nil_r.
  - rewrite body_more, PS, BR. cbn [bindr]. eauto.
Qed.
Lemma alike_refl l : Forall2 alike l l.
Proof. induction l; constructor; [now repeat split|assumption]. Qed.
Lemma alike_collapse ps w w' : Forall2 alike (collapse_last ps w) (collapse_last ps w').
Proof.
  induction ps as [|p [|q ps] IH]; [constructor|repeat constructor|].
  change (Forall2 alike (p :: collapse_last (q :: ps) w) (p :: collapse_last (q :: ps) w')). constructor; [now repeat split|exact IH].
Qed.
Lemma body_app a tp l r b1 b2 : body a tp l = Ok b1 -> body a tp r = Ok b2 ->
  exists b, body a tp (l ++ r) = Ok b /\ Forall2 alike (b1 ++ b2) b.
Proof.
  revert b1. induction l as [|e l IH]; intros b1 B1 B2.
  - injection B1 as <-. exists b2. split; [exact B2|apply alike_refl].
  - destruct (body_cons _ _ _ _ _ B1) as (ps & w & rest & PS & BR & ->). destruct (IH rest BR B2) as (b & B & AL).
    destruct (cons_body a tp e (l ++ r) ps b PS B) as (w' & X). exists (collapse_last ps w' ++ b). split; [exact X|].
    rewrite <- app_assoc. apply Forall2_app; [apply alike_collapse|exact AL].
Qed.
Lemma body_split a tp l r b : body a tp (l ++ r) = Ok b ->
  exists b1 b2, body a tp l = Ok b1 /\ body a tp r = Ok b2 /\ Forall2 alike (b1 ++ b2) b.
Proof.
  revert b. induction l as [|e l IH]; intros b B.
  - exists [], b. split; [reflexivity|]. split; [exact B|apply alike_refl].
  - cbn [app] in B. destruct (body_cons _ _ _ _ _ B) as (ps & w & rest & PS & BR & ->). destruct (IH rest BR) as (b1 & b2 & B1 & B2 & AL).
    destruct (cons_body a tp e l ps b1 PS B1) as (w' & X). exists (collapse_last ps w' ++ b1), b2. split; [exact X|]. split; [exact B2|].
    rewrite <- app_assoc. apply Forall2_app; [apply alike_collapse|exact AL].
Qed.

Lemma reworked_points :
  (forall e e', reworked e e' -> forall ps, points concat_space e = Ok ps -> exists ps', points concat_space e' = Ok ps' /\ mixed ps ps') /\
  (forall r r', reworked_all r r' -> forall a tp b, body a tp r = Ok b -> forall a' tp', exists b', body a' tp' r' = Ok b' /\ mixed b b').
Proof.
  apply reworked_mutind.
  - intros a a' kids kids' (S1 & S2 & S3 & S4) _ IH ps P. rewrite points_body in P.
    destruct (head_point a kids) as [hp|] eqn:HP; [|discriminate]. cbn [bindr] in P.
    destruct (body a (tail_point a) kids) as [b|] eqn:B; [|discriminate]. cbn [bindr] in P. injection P as <-.
    destruct (IH a (tail_point a) b B a' (tail_point a')) as (b' & B' & M). rewrite points_body, B'.
    assert (X : exists hp', head_point a' kids' = Ok hp' /\ mixed (opt_list hp) (opt_list hp')).
    { unfold head_point in *. rewrite S1, S2. destruct (a_kind a).
      - injection HP as <-. eexists. split; [reflexivity|constructor].
      - destruct (match a_head_origin a with None => _ | Some _ => _ end) as [s|]; [|discriminate]. cbn [bindr] in *. injection HP as <-.
        eexists. split; [reflexivity|]. cbn [opt_list]. apply mixed_keep; [reflexivity|exact S4|constructor].
      - destruct (match a_head_origin a with None => _ | Some _ => _ end) as [s|]; [|discriminate]. cbn [bindr] in *. injection HP as <-.
        eexists. split; [reflexivity|]. cbn [opt_list]. apply mixed_keep; [reflexivity|exact S4|constructor]. }
    destruct X as (hp' & HP' & MH). rewrite HP'. cbn [bindr]. eexists. split; [reflexivity|].
    apply mixed_app; [exact MH|]. apply mixed_app; [exact M|]. unfold tail_point. rewrite S1, S3.
    destruct (a_kind a); cbn [opt_list]; [constructor|constructor|]. apply mixed_keep; [reflexivity| |constructor]. cbn [p_text]. eauto.
  - intros a tp b B a' tp'. injection B as <-. exists []. split; [reflexivity|constructor].
  - intros e e' r r' _ IHe _ IHr a tp b B a' tp'.
    destruct (body_cons _ _ _ _ _ B) as (ps & w & rest & PS & BR & ->). destruct (IHe ps PS) as (ps' & PS' & ME).
    destruct (IHr a tp rest BR a' tp') as (rest' & BR' & MR). destruct (cons_body a' tp' e' r' ps' rest' PS' BR') as (w' & ->).
    eexists. split; [reflexivity|]. apply mixed_app; [now apply mixed_collapse|exact MR].
  - intros e r r' _ IHr a tp b B a' tp'.
    destruct (body_cons _ _ _ _ _ B) as (ps & w & rest & PS & BR & ->).
    destruct (IHr a tp rest BR a' tp') as (rest' & BR' & MR). exists rest'. split; [exact BR'|].
    exact (mixed_app _ [] (mixed_gone _) rest rest' MR).
  - intros n r r' N _ IHr a tp b B a' tp'. destruct (brand_new_points n N) as (ps & PS & MN).
    destruct (IHr a tp b B a' tp') as (rest' & BR' & MR). destruct (cons_body a' tp' n r' ps rest' PS BR') as (w' & ->).
    eexists. split; [reflexivity|]. exact (mixed_app [] _ (mixed_collapse [] ps [] w' MN) b rest' MR).
  - intros a0 kids kids' r r' _ IHk _ IHr a tp b B a' tp'.
    destruct (body_cons _ _ _ _ _ B) as (ps & w & rest & PS & BR & ->).
    destruct (IHr a tp rest BR a' tp') as (rest' & BR' & MR).
    rewrite points_body in PS. destruct (head_point a0 kids) as [hp|]; [|discriminate]. cbn [bindr] in PS.
    destruct (body a0 (tail_point a0) kids) as [bk|] eqn:BK; [|discriminate]. cbn [bindr] in PS. injection PS as <-.
    destruct (IHk a0 _ bk BK a' tp') as (bk' & BK' & MK). destruct (body_app a' tp' kids' r' bk' rest' BK' BR') as (b' & B' & AL).
    exists b'. split; [exact B'|].
    apply (mixed_alike ((opt_list hp ++ bk ++ opt_list (tail_point a0)) ++ rest) (bk' ++ rest')); [|apply Forall2_app; [apply collapse_alike|apply alike_refl]|exact AL].
    apply mixed_app; [|exact MR]. apply (mixed_app _ [] (mixed_gone _)). rewrite <- (app_nil_r bk'). apply mixed_app; [exact MK|apply mixed_gone].
  - intros a0 t l kids r r' O1 O2 H _ IHl _ IHr a tp b B a' tp'.
    destruct (body_split _ _ _ _ _ B) as (b1 & b2 & B1 & B2 & AL).
    destruct (IHr a tp b2 B2 a' tp') as (rest' & BR' & MR).
    destruct (IHl a tp b1 B1 a0 (tail_point a0)) as (bk & BK & MK).
    destruct (new_ends a0 kids t O1 O2 H) as (hp & HP & MH & MT).
    assert (PS : points concat_space (E a0 kids) = Ok (opt_list hp ++ bk ++ opt_list (tail_point a0))) by (now rewrite points_body, HP, BK).
    destruct (cons_body a' tp' _ r' _ rest' PS BR') as (w & ->). eexists. split; [reflexivity|].
    apply (mixed_alike (b1 ++ b2) ((opt_list hp ++ bk ++ opt_list (tail_point a0)) ++ rest')); [|exact AL|apply Forall2_app; [apply collapse_alike|apply alike_refl]].
    apply mixed_app; [|exact MR]. apply (mixed_app [] _ MH). rewrite <- (app_nil_r b1). apply mixed_app; [exact MK|exact MT].
Qed.
End Trees.

Section Loop.
Variable all : list token.
Hypothesis ordered : tokens_from 0 all.

Lemma worked_spec stop : forall ps ps', mixed ps ps' -> forall used toks pos from a a' gone,
  all = used ++ toks -> (forall t, In t used -> t_end t <= pos) -> cuts_no_token all from ->
  placed all from ps -> untouched all from a ps -> whole_tokens all ps -> stop <= last_end from ps ->
  match gone with
  | None => from = pos
  | Some e => e = from /\ pos < e /\ exists t, In t all /\ t_end t = e
  end ->
  exists cs, edits_loop ps' toks pos stop a' = Ok cs /\ worked stop pos a' gone ps ps' cs.
Proof.
  induction 1 as [|p p' ps ps' S M R IH|p ps ps' R IH|q t ps ps' S T R IH]; intros used toks pos from a a' gone A U CF PL UN WT LE G.
  - cbn [edits_loop last_end] in *. destruct gone as [e|].
    + eexists. split; [reflexivity|]. constructor.
    + subst from. destruct (Nat.ltb_spec pos stop); [lia|]. exists []. split; [reflexivity|constructor].
  - cbn [placed untouched last_end] in *. pose proof (Forall_inv WT) as W1; pose proof (Forall_inv_tail WT) as WT'. cbn beta in W1.
    destruct (p_span p) as [[i j]|] eqn:SP; [|destruct UN].
    destruct PL as (P1 & P2 & P3 & P4 & P5). destruct UN as (U1 & U2 & U3 & U4).
    assert (NEXT : forall used' toks', all = used' ++ toks' -> (forall t, In t used' -> t_end t <= j) ->
      exists cs, edits_loop ps' toks' j stop (p_after p') = Ok cs /\ worked stop j (p_after p') None ps ps' cs).
    { intros used' toks' A' U'. apply (IH used' toks' j j (p_after p) (p_after p') None); auto. }
    assert (C : exists c, (if p_modified p' then let! text := p_text p' in Ok [Change i j text] else Ok []) = Ok c /\ kept_text p' i j c).
    { destruct (p_modified p') eqn:MM.
      - destruct (M eq_refl) as (t & T). rewrite T. cbn [bindr]. eexists. split; [reflexivity|]. now apply kept_set.
      - eexists. split; [reflexivity|]. now apply kept_same. }
    destruct C as (c & C & KT).
    cbn [edits_loop]. rewrite S, C.
    destruct (Nat.ltb_spec pos i) as [L|L].
    + destruct (skip_to all ordered used toks pos i A U L P3) as (d & used' & toks' & E1 & E2 & E3 & E4 & E5). rewrite E1.
      destruct (NEXT used' toks' E2) as (cs & C1 & C2).
      { intros t I. destruct (E3 t I) as [X|X]; [lia|]. destruct (P4 t); [rewrite E2; apply in_app_iff; now left|assumption|lia]. }
      rewrite C1. cbn [bindr].
      destruct gone as [e|].
      * destruct G as (-> & PE & te & IT & ET).
        assert (D : d = from).
        { assert (from <= d).
          { rewrite <- ET. apply E5; [exact IT|lia|]. pose proof (tokens_from_in _ _ _ ordered IT). lia. }
          destruct E4 as [E4|(z & IZ & EZ & EL)]; [lia|]. destruct (CF z IZ) as [CZ|CZ]; [lia|].
          exfalso. apply (U3 z IZ CZ). pose proof (tokens_from_in _ _ _ ordered IZ). lia. }
        subst d. destruct (Nat.ltb_spec pos from); [|lia].
        exists (Change pos (match collapse_whitespace [a'; p_before p'] with [] => from | _ => i end) (collapse_whitespace [a'; p_before p']) :: c ++ cs). split.
        { cbn [app]. do 3 f_equal. destruct (collapse_whitespace [a'; p_before p']); cbn [truthy andb]; [reflexivity|].
          destruct (Nat.ltb_spec from i); lia. }
        apply (worked_keep_gone stop pos a' from p p' ps ps' i j); auto. apply strongest_collapse.
      * subst from.
        assert (D : d <= pos).
        { destruct E4 as [E4|(z & IZ & EZ & EL)]; [lia|]. destruct (CF z IZ) as [CZ|CZ]; [lia|].
          exfalso. apply (U3 z IZ CZ). pose proof (tokens_from_in _ _ _ ordered IZ). lia. }
        destruct (Nat.ltb_spec pos d); [lia|]. exists (c ++ cs). split; [reflexivity|].
        pose proof (worked_keep stop pos a' p p' ps ps' i j _ c cs SP S KT (strongest_collapse [a'; p_before p']) C2) as W.
        destruct (Nat.eqb_spec pos i); [lia|]. exact W.
    + destruct gone as [e|]; [destruct G as (-> & PE & _); lia|]. subst from. assert (pos = i) by lia. subst i.
      destruct (NEXT used toks A) as (cs & C1 & C2); [intros t I; specialize (U t I); lia|]. rewrite C1. cbn [bindr].
      pose proof (worked_keep stop pos a' p p' ps ps' pos j _ c cs SP S KT (strongest_collapse [a'; p_before p']) C2) as W.
      rewrite Nat.eqb_refl in W. eexists. split; [|exact W]. now destruct (collapse_whitespace [a'; p_before p']).
  - cbn [placed untouched last_end] in *. pose proof (Forall_inv WT) as W1; pose proof (Forall_inv_tail WT) as WT'. cbn beta in W1.
    destruct (p_span p) as [[i j]|] eqn:SP; [|destruct UN].
    destruct PL as (P1 & P2 & P3 & P4 & P5). destruct UN as (U1 & U2 & U3 & U4).
    assert (PF : pos <= from) by (destruct gone as [e|]; [destruct G as (-> & ? & _)|subst from]; lia).
    destruct (IH used toks pos j (p_after p) a' (Some j) A U P4 P5 U4 WT' LE) as (cs & C1 & C2).
    { split; [reflexivity|]. split; [lia|]. exact (W1 i j eq_refl). }
    exists cs. split; [exact C1|]. apply (worked_drop stop pos a' gone p ps ps' cs i j); auto.
  - cbn [edits_loop]. rewrite S, T. cbn [bindr]. destruct t as [|x t]; cbn [truthy].
    + destruct (IH used toks pos from a a' gone A U CF PL UN WT LE G) as (cs & C1 & C2). exists cs. split; [exact C1|]. now apply worked_empty.
    + destruct (IH used toks pos from a (p_after q) gone A U CF PL UN WT LE G) as (cs & C1 & C2). rewrite C1. cbn [bindr]. eexists. split; [reflexivity|].
      apply (worked_new stop pos a' gone q (x :: t)); auto; [discriminate|apply strongest_collapse].
Qed.

Lemma worked_order stop : forall pos a gone ps ps' cs, worked stop pos a gone ps ps' cs -> forall from,
  placed all from ps -> stop <= last_end from ps ->
  match gone with None => from = pos | Some e => e = from /\ pos <= e end ->
  in_order pos cs /\ Forall (fun c => c_end c <= last_end from ps) cs.
Proof.
  assert (KEEP : forall p' i j c cs n, kept_text p' i j c -> i <= j -> in_order j cs -> Forall (fun c => c_end c <= n) cs -> j <= n ->
    in_order i (c ++ cs) /\ Forall (fun c => c_end c <= n) (c ++ cs)).
  { intros p' i j c cs n KT IJ O F N. destruct KT; cbn [app].
    - split; [apply (in_order_mono _ _ j); [lia|exact O]|exact F].
    - split; [cbn [in_order c_pos c_end]; auto|constructor; [exact N|exact F]]. }
  induction 1 as [pos a|pos a e|pos a p p' ps ps' i j s c cs S S' KT ST C IH|pos a e p p' ps ps' i j s c cs S S' KT ST C IH|pos a gone p ps ps' cs i j S C IH
    |pos a gone q t s ps ps' cs S T NE ST C IH|pos a gone q ps ps' cs S T C IH]; intros from PL LE G.
  - cbn. auto.
  - cbn [last_end] in *. destruct (Nat.ltb_spec pos stop); [|cbn; auto]. cbn [in_order c_pos c_end]. repeat split; try lia. repeat constructor. cbn. lia.
  - cbn [placed last_end] in *. rewrite S in *. destruct PL as (P1 & P2 & P3 & P4 & P5). subst from.
    destruct (IH j P5 LE eq_refl) as [O F]. destruct (KEEP p' i j c cs _ KT (Nat.lt_le_incl _ _ P2) O F (last_end_ge _ _ _ P5)) as [O1 F1].
    pose proof (last_end_ge _ _ _ P5).
    destruct (Nat.eqb_spec pos i) as [->|N]; cbn [app]; [destruct s; cbn [app]|].
    + now split.
    + split; [cbn [in_order c_pos c_end]; auto|constructor; [cbn; lia|exact F1]].
    + split; [apply (in_order_mono _ _ i); [lia|exact O1]|exact F1].
  - cbn [placed last_end] in *. rewrite S in *. destruct PL as (P1 & P2 & P3 & P4 & P5). destruct G as [-> G].
    destruct (IH j P5 LE eq_refl) as [O F]. pose proof (last_end_ge _ _ _ P5).
    destruct (KEEP p' i j c cs _ KT (Nat.lt_le_incl _ _ P2) O F ltac:(assumption)) as [O1 F1]. split.
    + cbn [in_order c_pos c_end]. repeat split; [lia|destruct s; lia|]. apply (in_order_mono _ _ i); [destruct s; lia|exact O1].
    + constructor; [|exact F1]. cbn [c_end]. destruct s; lia.
  - cbn [placed last_end] in *. rewrite S in *. destruct PL as (P1 & P2 & P3 & P4 & P5).
    apply (IH j P5 LE). split; [reflexivity|]. destruct gone as [e|]; [destruct G as [-> G]|]; lia.
  - destruct (IH from PL LE G) as [O F]. split; [cbn [in_order c_pos c_end]; auto|]. constructor; [|exact F]. cbn [c_end].
    pose proof (last_end_ge _ _ _ PL). destruct gone as [e|]; [destruct G as [-> G]|]; lia.
  - exact (IH from PL LE G).
Qed.
End Loop.

(** ** Theorems *)

(** The tree of a document that was not modified is changed in any way: the text
    after edit() is the old one with the changes as given by [worked]; the
    number of the changes is returned. *)
Theorem C133_text : forall concat_space e e' ps d context start end_,
  let x := match context with Some x => x | None => d_root d end in
  let pos := match start with Some s => s | None => x_pos x end in
  let stop := match end_ with Some s => s | None => x_end x end in
  d_pending d = [] -> points concat_space e = Ok ps ->
  tokens_from 0 (x_tokens x) -> cuts_no_token (x_tokens x) pos -> placed (x_tokens x) pos ps ->
  untouched (x_tokens x) pos [] ps -> whole_tokens (x_tokens x) ps -> stop <= last_end pos ps -> last_end pos ps <= List.length (d_text d) ->
  reworked e e' ->
  exists ps' cs, points concat_space e' = Ok ps' /\ worked stop pos [] None ps ps' cs /\ in_order 0 cs /\
    edit concat_space e' d context start end_ = (Doc (apply_changes (d_text d) 0 cs) (d_root d) [], Ok (List.length cs)).
Proof.
  intros cs0 e e' ps [text root pend] ctx start end_ x pos stop PE P T C PL U WT L LT RW. cbn [d_pending d_text d_root] in *. subst pend.
  destruct (proj1 (reworked_points cs0) e e' RW ps P) as (ps' & P' & MX).
  destruct (worked_spec (x_tokens x) T stop ps ps' MX [] (x_tokens x) pos pos [] [] None) as (cs & E & CU); auto.
  { intros t []. }
  destruct (worked_order (x_tokens x) stop _ _ _ _ _ _ CU pos PL L eq_refl) as [O F].
  assert (O' : in_order 0 cs) by (apply (in_order_mono _ _ pos); [lia|exact O]).
  exists ps', cs. split; [exact P'|]. split; [exact CU|]. split; [exact O'|].
  unfold edit. cbn [d_root]. fold x. unfold edits. fold pos stop. rewrite P'. cbn [bindr]. rewrite E, loop_spec.
  unfold leave. cbn [d_text d_pending d_root Nat.add]. do 2 f_equal. rewrite app_nil_r. apply (splice_all cs text 0); [exact O'|lia|].
  revert F. apply Forall_impl. intros c H. cbn beta in H. lia.
Qed.
Print Assumptions C133_text.

(** [{ c4-. d4], a new line, [ e }] (see C131): the [c] becomes [fis], its duration
    is removed, the [d] gets a tie and the [e] is replaced by a new note. *)
Local Open Scope string_scope. Local Open Scope list_scope.
Definition mx_after : elem := rx_block
  [ex_leaf 1 "fis" (Some (Tok 2 3)) true [ex_leaf 4 "-." (Some (Tok 4 6)) false [] ""] "";
   rx_d [rx_four 8; ex_leaf 5 "~" None false [] ""];
   ex_leaf 1 "f" None false [ex_leaf 3 "8" None false [] ""] ""].

Example C133_witness :
  (exists ps, points concat_default rx_before = Ok ps /\
    tokens_from 0 rx_tokens /\ cuts_no_token rx_tokens 0 /\ placed rx_tokens 0 ps /\ untouched rx_tokens 0 [] ps /\
    whole_tokens rx_tokens ps /\ last_end 0 ps = 14) /\
  reworked rx_before mx_after /\
  edit concat_default mx_after (Doc rx_text (Context 0 14 rx_tokens) []) None None None =
    (Doc (txt "{ fis-. d4~ f8 }") (Context 0 14 rx_tokens) [], Ok 6).
Proof.
  split; [destruct C131_witness as [(ps & H1 & H2 & H3 & H4 & H5 & H6 & H7 & H8) _]; exists ps; tauto|]. split.
  - assert (L : forall id t o after, reworked (ex_leaf id t o false [] after) (ex_leaf id t o false [] after))
      by (intros; apply reworked_node; [repeat split; discriminate|apply reworked_nil]).
    assert (N : forall id t kids, Forall brand_new kids -> brand_new (ex_leaf id t None false kids ""))
      by (intros id t kids F; now apply (brand_new_node _ _ (txt t))).
    apply reworked_node; [repeat split; discriminate|].
    apply reworked_keep; [|apply reworked_keep; [|apply reworked_drop, reworked_add; [|apply reworked_nil]]].
    + apply reworked_node; [repeat split; cbn; eauto|]. apply reworked_drop, reworked_keep; [apply L|apply reworked_nil].
    + apply reworked_node; [repeat split; discriminate|]. apply reworked_keep; [apply L|]. apply reworked_add; [apply N; constructor|apply reworked_nil].
    + apply N. constructor; [apply N; constructor|constructor].
  - vm_compute. reflexivity.
Qed.

(** [\relative c' { d' } e], where the \relative is removed but not its music, and
    then [{ d' }] gets a new \relative around it. *)
Definition mv_head (id : nat) (t : string) (o : option token) (kids : list elem) : elem :=
  E (Attrs Head id (Ok (txt t)) [] (option_map (fun t => [t]) o) None false false [] (txt " ") (txt " ") [] []) kids.
Definition mv_leaf (id : nat) (t : string) (o : option token) (kids : list elem) : elem :=
  E (Attrs Head id (Ok (txt t)) [] (option_map (fun t => [t]) o) None false false [] [] [] [] []) kids.
Definition mv_block (o1 o2 : token) (kids : list elem) : elem :=
  E (Attrs Block 0 (Ok (txt "{")) (txt "}") (Some [o1]) (Some [o2]) false false [] (txt " ") (txt " ") (txt " ") []) kids.
Definition mv_root (kids : list elem) : elem := E (Attrs Plain 9 (Ok []) [] None None false false [] [] (txt " ") [] []) kids.
Definition mv_pitch (o : option (token * token)) : elem :=
  mv_leaf 2 "c" (option_map fst o) [mv_leaf 3 "'" (option_map snd o) []].
Definition mv_music (i : nat) : elem :=
  mv_block (Tok i (i + 1)) (Tok (i + 5) (i + 6)) [mv_leaf 1 "d" (Some (Tok (i + 2) (i + 3))) [mv_leaf 3 "'" (Some (Tok (i + 3) (i + 4))) []]].
Definition mv_relative (i : option nat) (kids : list elem) : elem := mv_head 8 "\relative" (option_map (fun i => Tok i (i + 9)) i) kids.
Definition mv_e (i : nat) : elem := mv_leaf 1 "e" (Some (Tok i (i + 1))) [].
Definition mv_tokens1 : list token := [Tok 0 9; Tok 10 11; Tok 11 12; Tok 13 14; Tok 15 16; Tok 16 17; Tok 18 19; Tok 20 21].
Definition mv_tokens2 : list token := [Tok 0 1; Tok 2 3; Tok 3 4; Tok 5 6; Tok 7 8].

Definition mv_before1 : elem := mv_root [mv_relative (Some 0) [mv_pitch (Some (Tok 10 11, Tok 11 12)); mv_music 13]; mv_e 20].
Definition mv_before2 : elem := mv_root [mv_music 0; mv_e 7].

Example C133_moved_witness :
  (exists ps, points concat_default mv_before1 = Ok ps /\ tokens_from 0 mv_tokens1 /\ cuts_no_token mv_tokens1 0 /\
    placed mv_tokens1 0 ps /\ untouched mv_tokens1 0 [] ps /\ whole_tokens mv_tokens1 ps /\ last_end 0 ps = 21) /\
  (exists ps, points concat_default mv_before2 = Ok ps /\ tokens_from 0 mv_tokens2 /\ cuts_no_token mv_tokens2 0 /\
    placed mv_tokens2 0 ps /\ untouched mv_tokens2 0 [] ps /\ whole_tokens mv_tokens2 ps /\ last_end 0 ps = 8) /\
  reworked mv_before1 (mv_root [mv_music 13; mv_e 20]) /\
  reworked mv_before2 (mv_root [mv_relative None [mv_pitch None; mv_music 0]; mv_e 7]) /\
  edit concat_default (mv_root [mv_music 13; mv_e 20]) (Doc (txt "\relative c' { d' } e") (Context 0 21 mv_tokens1) []) None None None =
    (Doc (txt " { d' } e") (Context 0 21 mv_tokens1) [], Ok 1) /\
  edit concat_default (mv_root [mv_relative None [mv_pitch None; mv_music 0]; mv_e 7]) (Doc (txt "{ d' } e") (Context 0 8 mv_tokens2) []) None None None =
    (Doc (txt "\relative c' { d' } e") (Context 0 8 mv_tokens2) [], Ok 4).
Proof.
  assert (FIND : forall (f : token -> nat) (n : nat) ts, existsb (fun t => Nat.eqb (f t) n) ts = true -> exists t, In t ts /\ f t = n).
  { intros f n ts H. apply existsb_exists in H. destruct H as (t & I & E). apply Nat.eqb_eq in E. eauto. }
  assert (L : forall id t o kids kids', reworked_all kids kids' -> reworked (mv_leaf id t o kids) (mv_leaf id t o kids'))
    by (intros; apply reworked_node; [repeat split; discriminate|assumption]).
  assert (M : forall i, reworked (mv_music i) (mv_music i)).
  { intros i. apply reworked_node; [repeat split; discriminate|]. apply reworked_keep; [|apply reworked_nil]. apply L.
    apply reworked_keep; [|apply reworked_nil]. apply L. apply reworked_nil. }
  split; [|split; [|split; [|split; [|vm_compute; auto]]]].
  1,2: eexists; split; [vm_compute; reflexivity|]; split; [cbn; lia|]; split; [intros t _; right; lia|]; split;
    [cbn -[cuts_no_token In];
      repeat match goal with
      | |- _ /\ _ => split
      | |- exists t, In t _ /\ t_pos t = ?i => apply (FIND t_pos); reflexivity
      | |- cuts_no_token _ _ => intros t I; cbn in I; repeat destruct I as [<-|I]; cbn; try lia; destruct I
      | |- _ <= _ => lia
      | |- _ < _ => lia
      | |- True => exact I
      end|];
    split; [cbn -[strongest In];
      repeat match goal with
      | |- _ /\ _ => split
      | |- _ = false => reflexivity
      | |- True => exact I
      | |- _ = _ -> strongest ?l [] => intros E; try discriminate E; exact (strongest_collapse l)
      | |- forall t, In t _ -> _ => intros t I; cbn in I; repeat destruct I as [<-|I]; cbn; try lia; destruct I
      end|];
    split; [|reflexivity];
    repeat (apply Forall_cons; [intros i j [= <- <-]; apply (FIND t_end); reflexivity|]); constructor.
  - apply reworked_node; [repeat split; discriminate|].
    apply (reworked_unwrap _ _ [mv_music 13]); [apply reworked_drop|]; (apply reworked_keep; [|apply reworked_nil]); [apply M|apply L, reworked_nil].
  - apply reworked_node; [repeat split; discriminate|]. apply (reworked_wrap _ (txt "\relative") [mv_music 0]); try reflexivity.
    + apply reworked_add; [|apply reworked_keep; [apply M|apply reworked_nil]].
      apply (brand_new_node _ _ (txt "c")); try reflexivity. constructor; [|constructor]. now apply (brand_new_node _ _ (txt "'")).
    + apply reworked_keep; [apply L|]; apply reworked_nil.
Qed.
