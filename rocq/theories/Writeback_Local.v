(** Property C129: edits of some nodes change the text of these nodes only. *)
From Coq Require Import String Ascii List Arith PeanoNat Bool Lia.
From Verif Require Import Base Element_Model Element_Spec Element_Proofs Element_Edits Element_Props Writeback_Model Writeback_Props.
Import ListNotations.

(** ** Specification *)

(** The type of the element, its origins and its spacing are the same. *)
Definition same_place (a a' : attrs) : Prop :=
  a_kind a' = a_kind a /\ a_id a' = a_id a /\ a_head_origin a' = a_head_origin a /\ a_tail_origin a' = a_tail_origin a /\
  a_before a' = a_before a /\ a_after_head a' = a_after_head a /\ a_between a' = a_between a /\
  a_before_tail a' = a_before_tail a /\ a_after a' = a_after a.

(** A head or tail that was not modified is left as it was, or gets another
    text, which is to come in the place of the old one. *)
Inductive part (o : option (list token)) (t : res str) : bool -> res str -> bool -> list change -> Prop :=
| part_same : part o t false t false []
| part_set i j s : span_of o = Some (i, j) -> part o t false (Ok s) true [Change i j s].

Definition spaces_only (s : str) : Prop := forall c, In c s -> c = nl \/ c = sp.

(** The space between nodes depends on their types and on the parent. *)
Definition by_type (concat_space : attrs -> elem -> elem -> str) : Prop := forall a a' n n' m m',
  a_id a' = a_id a -> a_between a' = a_between a -> a_id (attrs_of n') = a_id (attrs_of n) -> a_id (attrs_of m') = a_id (attrs_of m) ->
  concat_space a' n' m' = concat_space a n m.

(** The last text of the element ends at [j], and no space is wanted after it. *)
Inductive last_text : elem -> nat -> Prop :=
| last_head a i j : a_kind a = Head -> a_tail a = [] -> a_after a = [] -> span_of (a_head_origin a) = Some (i, j) -> last_text (E a []) j
| last_tail a kids i j : a_kind a = Block -> a_after a = [] -> span_of (a_tail_origin a) = Some (i, j) -> last_text (E a kids) j.

Section Edited.
Variable concat_space : attrs -> elem -> elem -> str.

(** A new element with the texts [ts], in which no space is wanted. *)
Inductive new_node : elem -> list str -> Prop :=
| new_node_text a t kids ts : a_kind a = Head -> a_head_origin a = None -> a_head a = Ok t -> t <> [] -> a_tail a = [] ->
    a_before a = [] -> a_after_head a = [] -> a_after a = [] -> new_nodes a kids ts -> new_node (E a kids) (t :: ts)
with new_nodes : attrs -> list elem -> list str -> Prop :=
| new_nil a : new_nodes a [] []
| new_cons a k r ts ts' : new_node k ts -> (forall m s, r = m :: s -> concat_space a k m = []) -> new_nodes a r ts' ->
    new_nodes a (k :: r) (ts ++ ts').

(** [edited e e' cs]: the tree [e'] is [e] with other heads and tails, and with
    new elements as first child or after another child; [cs] is what this means
    for the text: heads and tails replaced in their place, new elements right
    after the head of their parent or the text of the child before them.
    [edited_all a] is this for the children of an element with the attributes [a]. *)
Inductive edited : elem -> elem -> list change -> Prop :=
| edited_node a a' kids kids' ch ck ct :
    same_place a a' -> truthy (a_tail a') = truthy (a_tail a) ->
    part (a_head_origin a) (a_head a) (a_head_modified a) (a_head a') (a_head_modified a') ch ->
    part (a_tail_origin a) (Ok (a_tail a)) (a_tail_modified a) (Ok (a_tail a')) (a_tail_modified a') ct ->
    (has_head a = false -> ch = []) -> (has_tail a = false -> ct = []) ->
    edited_all a kids kids' ck ->
    edited (E a kids) (E a' kids') (ch ++ ck ++ ct)
| edited_insert a a' n ts kids kids' ch ck i j :
    same_place a a' -> a_kind a = Head -> a_tail a = [] -> a_tail a' = [] ->
    part (a_head_origin a) (a_head a) (a_head_modified a) (a_head a') (a_head_modified a') ch ->
    span_of (a_head_origin a) = Some (i, j) ->
    a_after_head a = [] -> spaces_only (a_after a) -> new_node n ts ->
    (forall k r, kids' = k :: r -> concat_space a' n k = []) ->
    edited_all a kids kids' ck ->
    edited (E a kids) (E a' (n :: kids')) (ch ++ map (Change j j) ts ++ ck)
with edited_all : attrs -> list elem -> list elem -> list change -> Prop :=
| edited_nil a : edited_all a [] [] []
| edited_cons a e e' r r' c cs : edited e e' c -> edited_all a r r' cs -> edited_all a (e :: r) (e' :: r') (c ++ cs)
| edited_put a e e' n ts r r' c cs j :
    a_kind a <> Block -> spaces_only (a_after a) -> edited e e' c -> last_text e j -> last_text e' j -> new_node n ts ->
    concat_space a e n = [] -> (forall k s, r = k :: s -> concat_space a e k = [] /\ concat_space a n k = []) ->
    edited_all a r r' cs ->
    edited_all a (e :: r) (e' :: n :: r') (c ++ map (Change j j) ts ++ cs).

Scheme new_node_ind2 := Induction for new_node Sort Prop
with new_nodes_ind2 := Induction for new_nodes Sort Prop.
Combined Scheme new_mutind from new_node_ind2, new_nodes_ind2.

Scheme edited_ind2 := Induction for edited Sort Prop
with edited_all_ind2 := Induction for edited_all Sort Prop.
Combined Scheme edited_mutind from edited_ind2, edited_all_ind2.

(** ** Proofs *)

Definition point_part (p p' : point) (c : list change) : Prop :=
  p_modified p = false /\
  ((p_modified p' = false /\ c = []) \/ exists i j s, p_span p = Some (i, j) /\ p_text p' = Ok s /\ p_modified p' = true /\ c = [Change i j s]).

(** New points, with the space [w] wanted after them. *)
Inductive new_points (w : str) : list point -> list str -> Prop :=
| new_points_one q t : p_span q = None -> p_text q = Ok t -> t <> [] -> p_before q = [] -> p_after q = w -> new_points w [q] [t]
| new_points_more q t qs ts : p_span q = None -> p_text q = Ok t -> t <> [] -> p_before q = [] -> p_after q = [] ->
    new_points w qs ts -> new_points w (q :: qs) (t :: ts).

Lemma new_points_last qs : forall v ts w g, collapse_whitespace [v; w] = g -> new_points v qs ts -> new_points g (collapse_last qs w) ts.
Proof.
  induction qs as [|q qs IH]; intros v ts w g G N; inversion N as [? t S T NE B A|? t ? ts' S T NE B A N']; subst.
  - cbn [collapse_last]. apply new_points_one; cbn; auto.
  - destruct qs as [|q' qs]; [inversion N'|]. change (new_points (collapse_whitespace [v; w]) (q :: collapse_last (q' :: qs) w) (t :: ts')).
    apply new_points_more; auto. now apply (IH v).
Qed.

Lemma new_points_app w qs ts : new_points [] qs ts -> forall rs us, new_points w rs us -> new_points w (qs ++ rs) (ts ++ us).
Proof.
  induction 1 as [q t S T NE B A|q t qs ts S T NE B A N IH]; intros rs us H; cbn [app]; apply new_points_more; auto.
Qed.

Inductive redone : list point -> list point -> list change -> Prop :=
| redone_nil : redone [] [] []
| redone_cons p p' ps ps' c cs : p_span p' = p_span p -> p_before p' = p_before p -> p_after p' = p_after p ->
    point_part p p' c -> redone ps ps' cs -> redone (p :: ps) (p' :: ps') (c ++ cs)
| redone_insert p p' qs ps ps' c cs i j ts : p_span p = Some (i, j) -> p_span p' = p_span p -> p_before p' = p_before p -> p_after p' = [] ->
    point_part p p' c -> new_points (p_after p) qs ts ->
    redone ps ps' cs -> redone (p :: ps) (p' :: qs ++ ps') (c ++ map (Change j j) ts ++ cs).

Lemma redone_app a a' c : redone a a' c -> forall b b' d, redone b b' d -> redone (a ++ b) (a' ++ b') (c ++ d).
Proof.
  induction 1 as [|p p' ps ps' c cs S B A P R IH|p p' qs ps ps' c cs i j ts S S' B A P Q R IH]; intros b b' d R2; [exact R2| |].
  - cbn [app]. rewrite <- app_assoc. constructor; auto.
  - cbn [app]. rewrite <- !app_assoc. apply (redone_insert p p' qs _ _ c _ i j ts); auto.
Qed.

Lemma redone_empty a a' c : redone a a' c -> a = [] <-> a' = [].
Proof. intros R. destruct R; split; intros; congruence || discriminate. Qed.

Lemma redone_last a a' c w : redone a a' c -> redone (collapse_last a w) (collapse_last a' w) c.
Proof.
  intros R. induction R as [|p p' ps ps' c cs S B A P R IH|p p' qs ps ps' c cs i j ts S S' B A P Q R IH]; [constructor| |].
  - pose proof (redone_empty _ _ _ R) as EE. destruct ps as [|x ps], ps' as [|x' ps'].
    + inversion R; subst. apply (redone_cons _ _ [] [] c []); cbn [p_span p_before p_after]; try assumption. now rewrite A.
    + destruct EE as [EE _]. specialize (EE eq_refl). discriminate.
    + destruct EE as [_ EE]. specialize (EE eq_refl). discriminate.
    + change (redone (p :: collapse_last (x :: ps) w) (p' :: collapse_last (x' :: ps') w) (c ++ cs)). constructor; auto.
  - assert (NE : qs <> []) by (destruct Q; discriminate).
    pose proof (redone_empty _ _ _ R) as EE. destruct ps as [|x ps], ps' as [|x' ps'].
    + inversion R; subst. rewrite app_nil_r. replace (collapse_last (p' :: qs) w) with (p' :: collapse_last qs w) by (now destruct qs).
      rewrite <- (app_nil_r (collapse_last qs w)).
      apply (redone_insert _ _ _ [] [] c [] i j ts); cbn [p_span p_before p_after p_text]; try assumption. now apply (new_points_last qs (p_after p)).
    + destruct EE as [EE _]. specialize (EE eq_refl). discriminate.
    + destruct EE as [_ EE]. specialize (EE eq_refl). discriminate.
    + replace (collapse_last (p' :: qs ++ x' :: ps') w) with (p' :: qs ++ collapse_last (x' :: ps') w).
      * apply (redone_insert p p' qs _ _ c _ i j ts); auto.
      * clear. replace (collapse_last (p' :: qs ++ x' :: ps') w) with (p' :: collapse_last (qs ++ x' :: ps') w) by (now destruct qs). f_equal.
        induction qs as [|q qs IH]; [reflexivity|]. cbn [app]. rewrite IH. now destruct qs.
Qed.

Lemma collapse_none w : spaces_only w -> collapse_whitespace [[]; w] = w.
Proof.
  intros H. cbn [collapse_whitespace fold_left]. destruct w as [|c w]; [reflexivity|].
  replace (key_lt (whitespace_key []) (whitespace_key (c :: w))) with true; [reflexivity|].
  unfold whitespace_key, key_lt. cbn [count fst snd]. destruct (H c (or_introl eq_refl)) as [-> | ->].
  - rewrite Ascii.eqb_refl. cbn [Nat.add]. reflexivity.
  - replace (Ascii.eqb sp nl) with false by reflexivity. rewrite Ascii.eqb_refl. cbn [Nat.add].
    destruct (count nl w); reflexivity.
Qed.

Hypothesis BT : by_type concat_space.

(** The points of the children, apart. *)
Definition body (a : attrs) (tp : option point) : list elem -> res (list point) :=
  fix children (l : list elem) : res (list point) :=
    match l with
    | [] => Ok []
    | n :: r =>
        let! ps := points concat_space n in
        match r with
        | [] => Ok (match tp with None => collapse_last ps (a_after a) | Some _ => ps end)
        | m :: _ => let! rest := children r in Ok (collapse_last ps (concat_space a n m) ++ rest)
        end
    end.
Lemma body_one a tp n : body a tp [n] = let! ps := points concat_space n in Ok (match tp with None => collapse_last ps (a_after a) | Some _ => ps end).
Proof. reflexivity. Qed.
Lemma body_more a tp n m r : body a tp (n :: m :: r) =
  let! ps := points concat_space n in let! rest := body a tp (m :: r) in Ok (collapse_last ps (concat_space a n m) ++ rest).
Proof. reflexivity. Qed.
Lemma points_body a kids : points concat_space (E a kids) =
  let! hp := head_point a kids in let! b := body a (tail_point a) kids in Ok (opt_list hp ++ b ++ opt_list (tail_point a)).
Proof. reflexivity. Qed.

Lemma new_node_points : (forall n ts, new_node n ts -> exists qs, points concat_space n = Ok qs /\ new_points [] qs ts) /\
  (forall a kids ts, new_nodes a kids ts -> a_after a = [] -> exists qs, body a None kids = Ok qs /\ (kids = [] /\ qs = [] /\ ts = [] \/ new_points [] qs ts)).
Proof.
  apply new_mutind.
  - intros a t kids ts K O H NE T B AH A _ IH. destruct (IH A) as (qs & B1 & B2). rewrite points_body.
    unfold head_point, tail_point. rewrite K, O, B1. cbn [bindr opt_list]. eexists. split; [reflexivity|]. rewrite H, T, B, AH, A, app_nil_r. cbn [app].
    destruct B2 as [(-> & -> & ->)|N].
    + apply new_points_one; auto.
    + apply new_points_more; auto. cbn [p_after truthy orb]. now destruct (negb _ || _).
  - intros a _. exists []. split; [reflexivity|now left].
  - intros a k r ts ts' _ (qs & P & N) C _ IH A. destruct (IH A) as (rs & B1 & B2). destruct r as [|m r].
    + destruct B2 as [(_ & _ & ->)|N2]; [|cbn in B1; injection B1 as <-; inversion N2]. rewrite body_one, P, A. cbn [bindr]. eexists. split; [reflexivity|]. right.
      rewrite app_nil_r. now apply (new_points_last qs []).
    + destruct B2 as [(X & _)|N2]; [discriminate|]. rewrite body_more, P, B1, (C m r eq_refl). cbn [bindr]. eexists. split; [reflexivity|]. right.
      apply new_points_app; [|exact N2]. now apply (new_points_last qs []).
Qed.

Lemma edited_id e e' c : edited e e' c -> a_id (attrs_of e') = a_id (attrs_of e).
Proof. destruct 1 as [? ? ? ? ? ? ? S|? ? ? ? ? ? ? ? ? ? S]; apply S. Qed.

Lemma edited_len a r r' c : edited_all a r r' c -> Nat.eqb (List.length r') 0 = Nat.eqb (List.length r) 0.
Proof. now destruct 1. Qed.

(** The points of an element with a last text. *)
Definition ends_at (j : nat) (ps ps' : list point) (c : list change) : Prop :=
  exists A p A' p' i c0 c1, ps = A ++ [p] /\ ps' = A' ++ [p'] /\ redone A A' c0 /\ c = c0 ++ c1 /\ point_part p p' c1 /\
    p_span p = Some (i, j) /\ p_span p' = p_span p /\ p_before p' = p_before p /\ p_after p = [] /\ p_after p' = [].

Lemma collapse_snoc A p w g : collapse_whitespace [p_after p; w] = g ->
  collapse_last (A ++ [p]) w = A ++ [Point (p_span p) (p_text p) (p_modified p) (p_before p) g].
Proof.
  intros <-. induction A as [|x A IH]; [reflexivity|]. cbn [app]. rewrite <- IH. destruct A; reflexivity.
Qed.

Lemma span_origin o : o <> Some [] ->
  match o with None => Ok None | Some l => let! s := origin_span l in Ok (Some s) end = Ok (span_of o).
Proof.
  destruct o as [[|t l]|]; intros H; [congruence| |reflexivity]. cbn [origin_span bindr span_of].
  do 4 f_equal. destruct l as [|x l]; reflexivity.
Qed.

Lemma part_point o t m t' m' c sp b a b' a' : part o t m t' m' c ->
  point_part (Point (span_of o) t m b a) (Point sp t' m' b' a') c.
Proof.
  intros P. destruct P as [|i j s E]; split; cbn [p_modified p_span p_text]; try reflexivity; [now left|].
  right. exists i, j, s. auto.
Qed.

Lemma tail_origin o : match o with None => None | Some l => match origin_span l with Ok s => Some s | Err _ => None end end = span_of o.
Proof.
  destruct o as [[|t l]|]; try reflexivity. rewrite origin_span_of by discriminate. reflexivity.
Qed.

Lemma edited_points : (forall e e' c, edited e e' c -> forall ps, points concat_space e = Ok ps ->
    exists ps', points concat_space e' = Ok ps' /\ redone ps ps' c /\ forall j, last_text e j -> last_text e' j -> ends_at j ps ps' c) /\
  (forall a r r' c, edited_all a r r' c -> forall a' tp tp' b, a_id a' = a_id a -> a_between a' = a_between a -> a_after a' = a_after a ->
    (a_kind a <> Block -> tp = None) -> (tp = None <-> tp' = None) -> body a tp r = Ok b -> exists b', body a' tp' r' = Ok b' /\ redone b b' c).
Proof.
  apply edited_mutind.
  - intros a a' kids kids' ch ck ct SP TT PH PT HH HT ED IH ps P. rewrite points_body in P.
    destruct (head_point a kids) as [hp|] eqn:HP; [|discriminate]. cbn [bindr] in P.
    destruct (body a (tail_point a) kids) as [b|] eqn:B; [|discriminate]. cbn [bindr] in P. injection P as <-.
    destruct SP as (S1 & S2 & S3 & S4 & S5 & S6 & S7 & S8 & S9).
    destruct (IH a' (tail_point a) (tail_point a') b S2 S7 S9) as (b' & B' & R); [| |exact B|].
    { unfold tail_point. destruct (a_kind a); congruence. }
    { unfold tail_point. rewrite S1. destruct (a_kind a); now split. }
    rewrite points_body, B'.
    assert (X : exists hp', head_point a' kids' = Ok hp' /\ redone (opt_list hp) (opt_list hp') ch).
    { unfold head_point in *. rewrite S1, S3, S5, S6, S9, TT, (edited_len _ _ _ _ ED). unfold has_head in HH.
      destruct (a_kind a) eqn:K.
      - injection HP as <-. rewrite (HH eq_refl). exists None. split; [reflexivity|constructor].
      - destruct (match a_head_origin a with None => _ | Some _ => _ end) as [sp|] eqn:O; [|discriminate]. cbn [bindr] in *.
        injection HP as <-. eexists. split; [reflexivity|]. cbn [opt_list]. rewrite <- (app_nil_r ch).
        assert (sp = span_of (a_head_origin a)) as ->.
        { rewrite span_origin in O; [now injection O|]. intros E. rewrite E in O. discriminate. }
        constructor; try reflexivity; [exact (part_point _ _ _ _ _ _ _ _ _ _ _ PH)|constructor].
      - destruct (match a_head_origin a with None => _ | Some _ => _ end) as [sp|] eqn:O; [|discriminate]. cbn [bindr] in *.
        injection HP as <-. eexists. split; [reflexivity|]. cbn [opt_list]. rewrite <- (app_nil_r ch).
        assert (sp = span_of (a_head_origin a)) as ->.
        { rewrite span_origin in O; [now injection O|]. intros E. rewrite E in O. discriminate. }
        constructor; try reflexivity; [exact (part_point _ _ _ _ _ _ _ _ _ _ _ PH)|constructor]. }
    destruct X as (hp' & HP' & RH). rewrite HP'. cbn [bindr]. eexists. split; [reflexivity|]. split.
    { apply redone_app; [exact RH|]. apply redone_app; [exact R|].
      unfold tail_point. rewrite S1. unfold has_tail in HT. destruct (a_kind a); [rewrite (HT eq_refl); constructor|rewrite (HT eq_refl); constructor|].
      cbn [opt_list]. rewrite S4, S8, S9, tail_origin. rewrite <- (app_nil_r ct). constructor; try reflexivity; [|constructor].
      exact (part_point _ _ _ _ _ _ _ _ _ _ _ PT). }
    intros j LT LT'. inversion LT as [? i ? K T AF SO|? ? i ? K AF SO]; subst.
    + inversion LT' as [? i' ? K' T' AF' SO'|? ? i' ? K' AF' SO']; subst; [|congruence].
      inversion ED; subst. cbn in B, B'. injection B as <-. injection B' as <-.
      assert (CT : ct = []) by (apply HT; unfold has_tail; now rewrite K). subst ct.
      unfold tail_point. rewrite K, K'. unfold head_point in HP, HP'. rewrite K in HP. rewrite K' in HP'. rewrite S3 in HP'.
      rewrite span_origin in HP, HP' by (intros E; rewrite E in SO; discriminate). cbn [bindr] in HP, HP'. injection HP as <-. injection HP' as <-.
      rewrite T, T', AF, AF'. cbn [List.length Nat.eqb negb orb truthy]. rewrite S5.
      exists [], (Point (span_of (a_head_origin a)) (a_head a) (a_head_modified a) (a_before a) []), [],
        (Point (span_of (a_head_origin a)) (a_head a') (a_head_modified a') (a_before a) []), i, [], ch.
      cbn [opt_list app]. rewrite !app_nil_r. split; [reflexivity|]. split; [reflexivity|]. split; [constructor|]. split; [reflexivity|]. split; [exact (part_point _ _ _ _ _ _ _ _ _ _ _ PH)|]. cbn. auto.
    + inversion LT' as [? i' ? K' T' AF' SO'|? ? i' ? K' AF' SO']; subst; [congruence|].
      unfold tail_point. rewrite K, K'. cbn [opt_list]. rewrite !tail_origin, AF, AF', S4, S8.
      exists (opt_list hp ++ b), (Point (span_of (a_tail_origin a)) (Ok (a_tail a)) (a_tail_modified a) (a_before_tail a) []),
        (opt_list hp' ++ b'), (Point (span_of (a_tail_origin a)) (Ok (a_tail a')) (a_tail_modified a') (a_before_tail a) []), i, (ch ++ ck), ct.
      rewrite <- !app_assoc. split; [reflexivity|]. split; [reflexivity|]. split; [now apply redone_app|]. split; [reflexivity|].
      split; [exact (part_point _ _ _ _ _ _ _ _ _ _ _ PT)|]. cbn. auto.
  - intros a a' n ts kids kids' ch ck i j SP K TA TA' PH SO AH SA NN CS ED IH ps P. rewrite points_body in P.
    destruct (head_point a kids) as [hp|] eqn:HP; [|discriminate]. cbn [bindr] in P.
    destruct (body a (tail_point a) kids) as [b|] eqn:B; [|discriminate]. cbn [bindr] in P. injection P as <-.
    destruct SP as (S1 & S2 & S3 & S4 & S5 & S6 & S7 & S8 & S9).
    destruct (IH a' (tail_point a) (tail_point a') b S2 S7 S9) as (b' & B' & R); [| |exact B|].
    { unfold tail_point. destruct (a_kind a); congruence. }
    { unfold tail_point. rewrite S1. destruct (a_kind a); now split. }
    assert (T0 : tail_point a = None) by (unfold tail_point; now rewrite K).
    assert (T1 : tail_point a' = None) by (unfold tail_point; now rewrite S1, K).
    destruct (proj1 new_node_points n ts NN) as (qs & PN & NP).
    rewrite points_body, T0, T1. rewrite T1 in B'.
    unfold head_point in *. rewrite S1, S3, K in *. rewrite span_origin in * by (intros E; rewrite E in SO; discriminate).
    cbn [bindr] in *. injection HP as <-. rewrite TA' , TA. cbn [List.length Nat.eqb negb orb truthy opt_list]. rewrite S5, S6, AH.
    assert (NL : forall j0, last_text (E a kids) j0 -> last_text (E a' (n :: kids')) j0 -> False).
    { intros j0 _ LT. inversion LT; subst; congruence. }
    destruct kids' as [|k' kids'].
    + inversion ED; subst. cbn [body] in B. injection B as <-. rewrite body_one, PN. cbn [bindr]. eexists. split; [reflexivity|]. split; [|intros j0 L1 L2; destruct (NL j0 L1 L2)].
      cbn [app List.length Nat.eqb negb orb p_span p_text p_modified p_before p_after]. rewrite ?app_nil_r.
      rewrite S9. rewrite <- (app_nil_r (collapse_last qs (a_after a))), <- (app_nil_r (map (Change j j) ts)).
      refine (redone_insert _ _ _ [] [] ch [] i j ts _ _ _ _ _ _ _); cbn [p_span p_text p_before p_after]; try reflexivity; try assumption; [|exact (new_points_last qs [] ts (a_after a) (a_after a) (collapse_none _ SA) NP)|constructor].
      exact (part_point _ _ _ _ _ _ _ _ _ _ _ PH).
    + destruct kids as [|k kids]; [inversion ED|]. rewrite body_more, PN, B'. cbn [bindr]. eexists. split; [reflexivity|]. split; [|intros j0 L1 L2; destruct (NL j0 L1 L2)].
      rewrite (CS k' kids' eq_refl). cbn [app List.length Nat.eqb negb orb p_span p_text p_modified p_before p_after]. rewrite ?app_nil_r.
      refine (redone_insert _ _ _ _ _ ch ck i j ts _ _ _ _ _ _ _); cbn [p_span p_text p_before p_after]; try reflexivity; try assumption.
      * exact (part_point _ _ _ _ _ _ _ _ _ _ _ PH).
      * exact (new_points_last qs [] ts [] [] eq_refl NP).
  - intros a a' tp tp' b _ _ _ _ _ B. injection B as <-. exists []. split; [reflexivity|constructor].
  - intros a e e' r r' c cs ED IH ER IHr a' tp tp' b A1 A2 A3 TN TT B.
    assert (PE : exists ps, points concat_space e = Ok ps).
    { destruct r; [rewrite body_one in B|rewrite body_more in B]; destruct (points concat_space e) as [ps|]; try discriminate; now exists ps. }
    destruct PE as (ps & P). destruct (IH ps P) as (ps' & P' & R & _).
    destruct r as [|m r].
    + inversion ER; subst. rewrite body_one, P in B. injection B as <-. rewrite body_one, P'. cbn [bindr]. eexists. split; [reflexivity|]. rewrite app_nil_r.
      destruct tp, tp'; try (destruct TT as [T1 T2]; specialize (T1 eq_refl) || specialize (T2 eq_refl); discriminate); [exact R|].
      rewrite A3. apply redone_last, R.
    + assert (RN : exists m' s', r' = m' :: s' /\ a_id (attrs_of m') = a_id (attrs_of m)).
      { inversion ER; subst; do 2 eexists; (split; [reflexivity|]); eapply edited_id; eassumption. }
      destruct RN as (m' & s' & -> & MI). rewrite body_more, P in B. cbn [bindr] in B. rewrite body_more, P'. cbn [bindr].
      destruct (body a tp (m :: r)) as [rest|] eqn:B1; [|discriminate]. cbn [bindr] in B. injection B as <-.
      destruct (IHr a' tp tp' rest A1 A2 A3 TN TT B1) as (rest' & B2 & R2). rewrite B2. cbn [bindr]. eexists. split; [reflexivity|].
      apply redone_app; [|exact R2].
      rewrite (BT a a' e e' m m' A1 A2 (edited_id _ _ _ ED) MI). apply redone_last, R.
  - intros a e e' n ts r r' c cs j KB SA ED IH LT LT' NN CN CK ER IHr a' tp tp' b A1 A2 A3 TN TT B.
    assert (PE : exists ps, points concat_space e = Ok ps).
    { destruct r; [rewrite body_one in B|rewrite body_more in B]; destruct (points concat_space e) as [ps|]; try discriminate; now exists ps. }
    destruct PE as (ps & P). destruct (IH ps P) as (ps' & P' & _ & EN).
    destruct (EN j LT LT') as (A & p & A' & p' & i & c0 & c1 & -> & -> & RA & -> & PP & SP & SP' & PB & AF & AF').
    destruct (proj1 new_node_points n ts NN) as (qs & PN & NP).
    pose proof (TN KB) as ->. assert (tp' = None) as -> by (now apply TT).
    assert (CN' : concat_space a' e' n = []) by (rewrite (BT a a' e e' n n A1 A2 (edited_id _ _ _ ED) eq_refl); exact CN).
    assert (INS : forall w, collapse_whitespace [[]; w] = w -> forall rest rest' d, redone rest rest' d ->
      redone (collapse_last (A ++ [p]) w ++ rest) (collapse_last (A' ++ [p']) [] ++ collapse_last qs w ++ rest') ((c0 ++ c1) ++ map (Change j j) ts ++ d)).
    { intros w W rest rest' d RR. rewrite (collapse_snoc A p w w), (collapse_snoc A' p' [] []);
        [|rewrite AF'; reflexivity|rewrite AF; exact W].
      rewrite <- !app_assoc. apply redone_app; [exact RA|]. cbn [app]. cbn [p_after p_span p_text p_modified p_before].
      refine (redone_insert _ _ _ _ _ c1 d i j ts _ _ _ _ _ _ RR); cbn [p_span p_text p_before p_after]; try reflexivity; try assumption.
      now apply (new_points_last qs []). }
    destruct r as [|m r].
    + inversion ER; subst. rewrite body_one, P in B. injection B as <-.
      rewrite body_more, P', body_one, PN. cbn [bindr]. eexists. split; [reflexivity|]. rewrite CN', A3.
      specialize (INS (a_after a) (collapse_none _ SA) [] [] [] redone_nil). rewrite !app_nil_r in *. exact INS.
    + assert (RN : exists m' s', r' = m' :: s' /\ a_id (attrs_of m') = a_id (attrs_of m)).
      { inversion ER; subst; do 2 eexists; (split; [reflexivity|]); eapply edited_id; eassumption. }
      destruct RN as (m' & s' & -> & MI). rewrite body_more, P in B. cbn [bindr] in B. rewrite body_more, P', body_more, PN. cbn [bindr].
      destruct (body a None (m :: r)) as [rest|] eqn:B1; [|discriminate]. cbn [bindr] in B. injection B as <-.
      destruct (IHr a' None None rest A1 A2 A3 TN TT B1) as (rest' & B2 & R2). rewrite B2. cbn [bindr]. eexists. split; [reflexivity|].
      destruct (CK m r eq_refl) as [C1 C2]. rewrite CN'. rewrite (BT a a' n n m m' A1 A2 eq_refl MI), C2, C1.
      exact (INS [] eq_refl rest rest' cs R2).
Qed.
End Edited.

Lemma new_points_loop w qs ts : new_points w qs ts -> forall ps toks j end_,
  edits_loop (qs ++ ps) toks j end_ [] = let! rest := edits_loop ps toks j end_ w in Ok (map (Change j j) ts ++ rest).
Proof.
  induction 1 as [q t S T NE B A|q t qs ts S T NE B A N IH]; intros ps toks j end_; cbn [app edits_loop map]; rewrite S, T, B; cbn [bindr];
    (destruct t as [|x t]; [congruence|]); cbn [truthy]; rewrite A.
  - reflexivity.
  - rewrite IH. destruct (edits_loop ps toks j end_ w); reflexivity.
Qed.

Section Loop.
Variable all : list token.
Hypothesis ordered : tokens_from 0 all.

Lemma redone_spec : forall ps ps' cs, redone ps ps' cs -> forall used toks pos end_ a,
  all = used ++ toks -> (forall t, In t used -> t_end t <= pos) -> cuts_no_token all pos ->
  placed all pos ps -> untouched all pos a ps -> end_ <= last_end pos ps ->
  edits_loop ps' toks pos end_ a = Ok cs.
Proof.
  (* one point that was not new *)
  assert (ONE : forall p p' c, p_span p' = p_span p -> p_before p' = p_before p -> point_part p p' c ->
    forall ps used toks pos end_ a, all = used ++ toks -> (forall t, In t used -> t_end t <= pos) -> cuts_no_token all pos ->
    placed all pos (p :: ps) -> untouched all pos a (p :: ps) -> end_ <= last_end pos (p :: ps) ->
    exists i j used' toks', p_span p = Some (i, j) /\ all = used' ++ toks' /\ (forall t, In t used' -> t_end t <= j) /\ cuts_no_token all j /\
      placed all j ps /\ untouched all j (p_after p) ps /\ end_ <= last_end j ps /\
      forall qs, edits_loop (p' :: qs) toks pos end_ a = let! rest := edits_loop qs toks' j end_ (p_after p') in Ok (c ++ rest)).
  { intros p p' c S B PP ps used toks pos end_ a A U CT PL UN LE. cbn [placed untouched last_end] in *.
    destruct (p_span p) as [[ppos pend]|] eqn:SP; [|destruct UN].
    destruct PL as (P1 & P2 & P3 & P4 & P5). destruct UN as (U1 & U2 & U3 & U4).
    assert (M : (if p_modified p' then let! text := p_text p' in Ok [Change ppos pend text] else Ok []) = Ok c).
    { destruct PP as [_ [[-> ->]|(i & j & s & E & T & -> & ->)]]; [reflexivity|]. rewrite SP in E. injection E as <- <-. now rewrite T. }
    destruct (Nat.ltb_spec pos ppos) as [L|L].
    + assert (T : exists t, In t toks /\ t_pos t = ppos).
      { destruct P3 as (t & I & P). rewrite A in I. apply in_app_iff in I. destruct I as [I|I]; [|eauto].
        specialize (U t I).
        assert (t_pos t < t_end t) by (apply (tokens_from_in all 0); [exact ordered|rewrite A; apply in_or_app; auto]). lia. }
      destruct (skip_tokens_spec all ordered toks used ppos pos pos A T) as (sk & t & rest & E1 & E2 & E3 & E4).
      set (d := match rev sk with [] => pos | x :: _ => t_end x end) in *.
      assert (AA : all = (used ++ sk ++ [t]) ++ rest) by (rewrite A, E1, <- !app_assoc; reflexivity).
      assert (D : d <= pos).
      { unfold d. destruct (rev sk) as [|z r] eqn:RV; [lia|].
        assert (I : In z sk) by (rewrite in_rev, RV; left; reflexivity).
        assert (Iz : In z all) by (rewrite A, E1, !in_app_iff; auto).
        destruct (CT z Iz); [assumption|]. exfalso. apply (U3 z Iz); [assumption|].
        specialize (E3 z I). pose proof (tokens_from_in _ _ _ ordered Iz). lia. }
      exists ppos, pend, (used ++ sk ++ [t]), rest. split; [reflexivity|]. split; [exact AA|]. split.
      { intros y I. rewrite !in_app_iff in I. destruct I as [I|[I|[<-|[]]]].
        * specialize (U y I). lia.
        * specialize (E3 y I). lia.
        * destruct (P4 t); [|assumption|lia]. rewrite AA, !in_app_iff. left; right; right; left; reflexivity. }
      repeat (split; [assumption|]). intros qs. cbn [edits_loop]. rewrite S.
      destruct (Nat.ltb_spec pos ppos); [|lia]. rewrite E4. fold d.
      destruct (Nat.ltb_spec pos d); [lia|]. rewrite M. cbn [bindr app]. reflexivity.
    + assert (pos = ppos) by lia. specialize (U2 H).
      exists ppos, pend, used, toks. split; [reflexivity|]. split; [exact A|]. split; [intros t I; specialize (U t I); lia|].
      repeat (split; [assumption|]). intros qs. cbn [edits_loop]. rewrite S.
      destruct (Nat.ltb_spec pos ppos); [lia|]. rewrite B, (strongest_unique _ _ _ (strongest_collapse [a; p_before p]) U2). cbn [truthy].
      rewrite M. reflexivity. }
  intros ps ps' cs R.
  induction R as [|p p' ps ps' c cs S B A0 P R IH|p p' qs ps ps' c cs i j ts S S' B A0 P Q R IH]; intros used toks pos end_ a A U CT PL UN LE.
  - cbn [edits_loop]. cbn [last_end] in LE. destruct (Nat.ltb_spec pos end_); [lia|reflexivity].
  - destruct (ONE p p' c S B P ps used toks pos end_ a A U CT PL UN LE) as (i & j & used' & toks' & X1 & X2 & X3 & X4 & X5 & X6 & X7 & X8).
    rewrite X8, A0, (IH used' toks' j end_ (p_after p) X2 X3 X4 X5 X6 X7). reflexivity.
  - destruct (ONE p p' c S' B P ps used toks pos end_ a A U CT PL UN LE) as (i' & j' & used' & toks' & X1 & X2 & X3 & X4 & X5 & X6 & X7 & X8).
    rewrite S in X1. injection X1 as <- <-. rewrite X8, A0, (new_points_loop _ _ _ Q).
    rewrite (IH used' toks' j end_ (p_after p) X2 X3 X4 X5 X6 X7). reflexivity.
Qed.
End Loop.

(** ** Theorems *)

(** Some heads and tails of a document that was not modified are changed and new
    children are added: the edits are these changes and no others. *)
Theorem C129_edits : forall concat_space e e' ps cs tokens context_pos context_end start end_,
  let pos := match start with Some s => s | None => context_pos end in
  let stop := match end_ with Some s => s | None => context_end end in
  by_type concat_space -> points concat_space e = Ok ps ->
  tokens_from 0 tokens -> cuts_no_token tokens pos -> placed tokens pos ps ->
  untouched tokens pos [] ps -> stop <= last_end pos ps ->
  edited concat_space e e' cs ->
  edits concat_space e' context_pos context_end tokens start end_ = Ok cs.
Proof.
  intros cs0 e e' ps cs tokens cp ce start end_ pos stop BT P T C PL U L E.
  destruct (proj1 (edited_points cs0 BT) e e' cs E ps P) as (ps' & P' & R & _).
  unfold edits. fold pos stop. rewrite P'. cbn [bindr].
  apply (redone_spec tokens T ps ps' cs R [] tokens pos stop []); auto. intros t [].
Qed.
Print Assumptions C129_edits.

Lemma redone_changes all : forall ps ps' cs, redone ps ps' cs -> forall from, placed all from ps ->
  in_order from cs /\ Forall (fun c => c_end c <= last_end from ps) cs.
Proof.
  assert (PC : forall p p' c from ps, point_part p p' c -> placed all from (p :: ps) -> forall i j, p_span p = Some (i, j) -> forall cs n,
    in_order j cs -> Forall (fun c => c_end c <= n) cs -> j <= n -> in_order from (c ++ cs) /\ Forall (fun c => c_end c <= n) (c ++ cs)).
  { intros p p' c from ps [_ X] PL i j SP cs n O F N. cbn [placed] in PL. rewrite SP in PL. destruct PL as (P1 & P2 & _).
    destruct X as [[_ ->]|(i' & j' & s & E & _ & _ & ->)]; cbn [app].
    - split; [|exact F]. apply (in_order_mono _ _ j); [lia|exact O].
    - rewrite SP in E. injection E as <- <-. cbn [in_order c_pos c_end]. split; [repeat split; auto; lia|]. constructor; [exact N|exact F]. }
  intros ps ps' cs R. induction R as [|p p' ps ps' c cs S B A0 P R IH|p p' qs ps ps' c cs i j ts S S' B A0 P Q R IH]; intros from PL.
  - cbn. auto.
  - destruct (p_span p) as [[i j]|] eqn:SP.
    + pose proof PL as PL'. cbn [placed] in PL'. rewrite SP in PL'. destruct PL' as (P1 & P2 & _ & _ & PL').
      destruct (IH j PL') as [O F]. cbn [last_end]. rewrite SP.
      apply (PC p p' c from ps P PL i j SP); [exact O|exact F|exact (last_end_ge _ _ _ PL')].
    + destruct P as [_ [[_ ->]|(i & j & s & E & _)]]; [|congruence]. cbn [app]. cbn [placed last_end] in *. rewrite SP in *. exact (IH from PL).
  - pose proof PL as PL'. cbn [placed] in PL'. rewrite S in PL'. destruct PL' as (P1 & P2 & _ & _ & PL').
    destruct (IH j PL') as [O F]. cbn [last_end]. rewrite S. pose proof (last_end_ge _ _ _ PL') as G.
    apply (PC p p' c from ps P PL i j S); [| |exact G].
    + clear - O. induction ts as [|t ts IH]; [exact O|]. cbn [map app in_order c_pos c_end]. repeat split; auto.
    + apply Forall_app. split; [|exact F]. apply Forall_forall. intros x I. apply in_map_iff in I. destruct I as (t & <- & _). exact G.
Qed.

(** The text of the document after [edit]: the old text in which only the
    changed heads and tails are replaced and the new texts inserted;
    the number of changes is returned. *)
Theorem C129_text : forall concat_space e e' ps cs d context start end_,
  let x := match context with Some x => x | None => d_root d end in
  let pos := match start with Some s => s | None => x_pos x end in
  let stop := match end_ with Some s => s | None => x_end x end in
  d_pending d = [] -> by_type concat_space -> points concat_space e = Ok ps ->
  tokens_from 0 (x_tokens x) -> cuts_no_token (x_tokens x) pos -> placed (x_tokens x) pos ps ->
  untouched (x_tokens x) pos [] ps -> stop <= last_end pos ps -> last_end pos ps <= List.length (d_text d) ->
  edited concat_space e e' cs ->
  edit concat_space e' d context start end_ = (Doc (apply_changes (d_text d) 0 cs) (d_root d) [], Ok (List.length cs)) /\
  in_order 0 cs.
Proof.
  intros cs0 e e' ps cs [text root pend] ctx start end_ x pos stop PE BT P T C PL U L LT E. cbn [d_pending d_text] in *. subst pend.
  destruct (proj1 (edited_points cs0 BT) e e' cs E ps P) as (ps' & P' & R & _).
  destruct (redone_changes _ _ _ _ R pos PL) as [O F].
  assert (O' : in_order 0 cs) by (apply (in_order_mono _ _ pos); [lia|exact O]).
  split; [|exact O'].
  unfold edit. fold x. rewrite (C129_edits cs0 e e' ps cs (x_tokens x) (x_pos x) (x_end x) start end_ BT P T C PL U L E), loop_spec.
  unfold leave. cbn [d_text d_pending d_root Nat.add]. do 2 f_equal. rewrite app_nil_r. apply (splice_all cs text 0); [exact O'|lia|].
  revert F. apply Forall_impl. intros c H. cbn beta in H. lia.
Qed.
Print Assumptions C129_text.

(** [{ c4  d'8 % x] and [}] on the next line; the tokens are the brace, c, 4, d, ', 8, the comment, the brace. *)
Local Open Scope string_scope. Local Open Scope list_scope.
Definition ex_newline := String nl "".
Definition ex_text : str := txt ("{ c4  d'8 % x" ++ ex_newline ++ "}")%string.
Definition ex_tokens : list token := [Tok 0 1; Tok 2 3; Tok 3 4; Tok 6 7; Tok 7 8; Tok 8 9; Tok 10 13; Tok 14 15].
Definition ex_leaf (id : nat) (t : string) (o : option token) (m : bool) (kids : list elem) (after : string) : elem :=
  E (Attrs Head id (Ok (txt t)) [] (option_map (fun t => [t]) o) None m false [] [] [] [] (txt after)) kids.
Definition ex_block (kids : list elem) : elem :=
  E (Attrs Block 0 (Ok (txt "{")) (txt "}") (Some [Tok 0 1]) (Some [Tok 14 15]) false false [] (txt " ") (txt " ") (txt " ") []) kids.
Definition ex_before : elem := ex_block
  [ex_leaf 1 "c" (Some (Tok 2 3)) false [ex_leaf 3 "4" (Some (Tok 3 4)) false [] ""] "";
   ex_leaf 1 "d" (Some (Tok 6 7)) false [ex_leaf 2 "'" (Some (Tok 7 8)) false [] ""; ex_leaf 3 "8" (Some (Tok 8 9)) false [] ""] "";
   ex_leaf 4 "% x" (Some (Tok 10 13)) false [] ex_newline].
Definition ex_after : elem := ex_block
  [ex_leaf 1 "fis" (Some (Tok 2 3)) true [ex_leaf 2 "''" None false [] ""; ex_leaf 3 "4" (Some (Tok 3 4)) false [] ""] "";
   ex_leaf 1 "d" (Some (Tok 6 7)) false [ex_leaf 2 "" (Some (Tok 7 8)) true [] ""; ex_leaf 3 "8" (Some (Tok 8 9)) false [] ""; ex_leaf 5 "-" None false [ex_leaf 6 "." None false [] ""] ""] "";
   ex_leaf 4 "% x" (Some (Tok 10 13)) false [] ex_newline].

Example C129_witness :
  exists ps, points concat_default ex_before = Ok ps /\ by_type concat_default /\
    tokens_from 0 ex_tokens /\ cuts_no_token ex_tokens 0 /\ placed ex_tokens 0 ps /\ untouched ex_tokens 0 [] ps /\ last_end 0 ps = 15 /\
    edited concat_default ex_before ex_after [Change 2 3 (txt "fis"); Change 3 3 (txt "''"); Change 7 8 []; Change 9 9 (txt "-"); Change 9 9 (txt ".")] /\
    edit concat_default ex_after (Doc ex_text (Context 0 15 ex_tokens) []) None None None
    = (Doc (txt ("{ fis''4  d8-. % x" ++ ex_newline ++ "}")%string) (Context 0 15 ex_tokens) [], Ok 5).
Proof.
  eexists. split; [vm_compute; reflexivity|]. split; [intros a a' n n' m m' _ H _ _; exact H|].
  split; [cbn; lia|].
  split; [intros t _; right; lia|]. split.
  { cbn -[cuts_no_token In]. 
    repeat (split; [lia|]).
    repeat match goal with
    | |- _ /\ _ => split
    | |- exists t, In t ex_tokens /\ t_pos t = ?i =>
        first [exists (Tok i (i+1)); split; [cbn; tauto|reflexivity]|exists (Tok 10 13); split; [cbn; tauto|reflexivity]]
    | |- cuts_no_token _ _ => intros t I; cbn in I; repeat destruct I as [<-|I]; cbn; try lia; destruct I
    | |- _ <= _ => lia
    | |- _ < _ => lia
    | |- True => exact I
    end. }
  split.
  { cbn -[strongest In].
    repeat match goal with
    | |- _ /\ _ => split
    | |- _ = false => reflexivity
    | |- True => exact I
    | |- _ = _ -> strongest ?l [] => intros E; try discriminate E; exact (strongest_collapse l)
    | |- forall t, In t _ -> _ => intros t I; cbn in I; repeat destruct I as [<-|I]; cbn; try lia; destruct I
    end. }
  split; [reflexivity|]. split.
  { assert (K : forall id t o kids after, forall kids' c, edited_all concat_default (attrs_of (ex_leaf id t o false [] after)) kids kids' c ->
      edited concat_default (ex_leaf id t o false kids after) (ex_leaf id t o false kids' after) c).
    { intros id t o kids after kids' c H. rewrite <- (app_nil_r c), <- (app_nil_l (c ++ [])).
      apply edited_node; try reflexivity; try apply H; try constructor; repeat split. }
    assert (L : forall x x' y y' z z' c d f, edited concat_default x x' c -> edited concat_default y y' d -> edited concat_default z z' f ->
      forall a, edited_all concat_default a [x; y; z] [x'; y'; z'] (c ++ d ++ f ++ [])).
    { intros. repeat constructor; assumption. }
    apply (edited_node concat_default _ _ _ _ [] [Change 2 3 (txt "fis"); Change 3 3 (txt "''"); Change 7 8 []; Change 9 9 (txt "-"); Change 9 9 (txt ".")] []); try reflexivity; try apply part_same; [repeat split|].
    apply (L _ _ _ _ _ _ [Change 2 3 (txt "fis"); Change 3 3 (txt "''")] [Change 7 8 []; Change 9 9 (txt "-"); Change 9 9 (txt ".")] []).
    - apply (edited_insert concat_default _ _ _ [txt "''"] _ _ [Change 2 3 (txt "fis")] [] 2 3); try reflexivity.
      + repeat split.
      + now apply part_set.
      + intros c [].
      + apply new_node_text; try reflexivity; [discriminate|constructor].
      + apply (edited_cons concat_default _ _ _ _ _ [] []); [|constructor]. apply K; constructor.
    - apply K. apply (edited_cons concat_default _ _ _ _ _ [Change 7 8 []] [Change 9 9 (txt "-"); Change 9 9 (txt ".")]).
      + apply (edited_node concat_default _ _ _ _ [Change 7 8 []] [] []);
          [repeat split|reflexivity|now apply (part_set _ _ 7 8 [])|apply part_same|discriminate|reflexivity|constructor].
      + apply (edited_put concat_default _ _ _ _ [txt "-"; txt "."] [] [] [] [] 9); try reflexivity.
        * discriminate.
        * intros c [].
        * apply K; constructor.
        * now apply (last_head _ 8 9).
        * now apply (last_head _ 8 9).
        * apply new_node_text; try reflexivity; [discriminate|]. apply (new_cons _ _ _ _ [txt "."] []); [|discriminate|constructor].
          apply new_node_text; try reflexivity; [discriminate|constructor].
        * discriminate.
        * constructor.
    - apply K; constructor. }
  vm_compute. reflexivity.
Qed.
