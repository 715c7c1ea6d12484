From Coq Require Import String Ascii List Arith Bool Lia.
From Verif Require Import Base Element_Model Element_Spec.
Import ListNotations.

(** * Whitespace *)
Lemma count_occ_eq : forall c s, count c s = occurrences c s.
Proof.
  intros c s; induction s as [|x r IH]; [reflexivity|].
  cbn [count]. rewrite IH. unfold occurrences. cbn [filter].
  rewrite Ascii.eqb_sym. destruct (Ascii.eqb c x); reflexivity.
Qed.

Lemma key_lt_stronger : forall v w, key_lt (whitespace_key v) (whitespace_key w) = true <-> stronger w v.
Proof.
  intros v w. unfold key_lt, whitespace_key, stronger, newlines, spaces. cbn [fst snd].
  rewrite !count_occ_eq.
  rewrite orb_true_iff, andb_true_iff, !Nat.ltb_lt, Nat.eqb_eq. tauto.
Qed.

Lemma key_lt_not : forall v w, key_lt (whitespace_key v) (whitespace_key w) = false <-> ~ stronger w v.
Proof. intros; rewrite <- key_lt_stronger. destruct (key_lt _ _); split; congruence. Qed.

Definition op (best x : str) : str := if key_lt (whitespace_key best) (whitespace_key x) then x else best.

Lemma op_cases : forall a b, (stronger b a /\ op a b = b) \/ (~ stronger b a /\ op a b = a).
Proof.
  intros a b. unfold op. destruct (key_lt _ _) eqn:K.
  - left. split; [apply key_lt_stronger; exact K|reflexivity].
  - right. split; [apply key_lt_not; exact K|reflexivity].
Qed.

Lemma op_assoc : forall a b c, op a (op b c) = op (op a b) c.
Proof.
  intros a b c.
  destruct (op_cases b c) as [[S1 E1]|[S1 E1]]; rewrite E1;
  destruct (op_cases a b) as [[S2 E2]|[S2 E2]]; rewrite E2;
  try rewrite E1; try rewrite E2; try reflexivity.
  - destruct (op_cases a c) as [[S3 E3]|[S3 E3]]; rewrite ?E3; auto.
    unfold stronger in *; lia.
  - destruct (op_cases a c) as [[S3 E3]|[S3 E3]]; rewrite ?E3; auto.
    unfold stronger in *; lia.
Qed.

Lemma collapse_cons : forall w r, collapse_whitespace (w :: r) = fold_left op r w.
Proof. reflexivity. Qed.

Lemma fold_op : forall r a b, fold_left op r (op a b) = op a (fold_left op r b).
Proof.
  induction r as [|x r IH]; intros a b; [reflexivity|].
  cbn [fold_left]. rewrite <- op_assoc. apply IH.
Qed.

Lemma collapse_app : forall a b, a <> [] -> b <> [] ->
  collapse_whitespace (a ++ b) = op (collapse_whitespace a) (collapse_whitespace b).
Proof.
  intros [|x a] [|y b] H1 H2; try congruence.
  cbn [app]. rewrite !collapse_cons, fold_left_app. cbn [fold_left]. apply fold_op.
Qed.

Lemma strongest_collapse : forall ws, strongest ws (collapse_whitespace ws).
Proof.
  intros [|w r]; [left; auto|right]. rewrite collapse_cons.
  assert (G : forall r b l1 l2,
    (forall v, In v l1 -> stronger b v) -> (forall v, In v l2 -> ~ stronger v b) ->
    exists k1 k2, (l1 ++ b :: l2) ++ r = k1 ++ fold_left op r b :: k2 /\
      (forall v, In v k1 -> stronger (fold_left op r b) v) /\ (forall v, In v k2 -> ~ stronger v (fold_left op r b))).
  { clear. induction r as [|x r IH]; intros b l1 l2 H1 H2.
    - exists l1, l2. rewrite app_nil_r. auto.
    - cbn [fold_left]. destruct (op_cases b x) as [[S1 E1]|[S1 E1]]; rewrite E1.
      + destruct (IH x (l1 ++ b :: l2) []) as (k1 & k2 & K & A & B).
        * intros v I. apply in_app_iff in I. destruct I as [I|[I|I]].
          -- specialize (H1 v I). unfold stronger in *; lia.
          -- subst; assumption.
          -- specialize (H2 v I). unfold stronger in *; lia.
        * intros v [].
        * exists k1, k2. split; [rewrite <- K, <- !app_assoc; reflexivity|auto].
      + destruct (IH b l1 (l2 ++ [x])) as (k1 & k2 & K & A & B); auto.
        * intros v I. apply in_app_iff in I. destruct I as [I|[I|[]]]; [auto|subst; auto].
        * exists k1, k2. split; [rewrite <- K, <- ?app_assoc; cbn [app]; rewrite <- ?app_assoc; reflexivity|auto]. }
  destruct (G r w [] []) as (k1 & k2 & K & A & B); [intros v []|intros v []|].
  exists k1, k2. auto.
Qed.

Lemma strongest_in : forall ws g, strongest ws g -> ws <> [] -> In g ws.
Proof.
  intros ws g [[E _]|(l1 & l2 & E & _)] N; [congruence|].
  rewrite E. apply in_or_app. right; left; reflexivity.
Qed.

Lemma strongest_max : forall ws g w, strongest ws g -> In w ws -> ~ stronger w g.
Proof.
  intros ws g w [[E _]|(l1 & l2 & E & A & B)] I; [subst; destruct I|].
  subst ws. apply in_app_iff in I. destruct I as [I|[I|I]].
  - specialize (A w I). unfold stronger in *; lia.
  - subst. unfold stronger; lia.
  - auto.
Qed.

Lemma strongest_unique : forall ws g h, strongest ws g -> strongest ws h -> g = h.
Proof.
  intros ws g h G H. destruct ws as [|w0 ws].
  { destruct G as [[_ G]|(l1 & l2 & E & _)]; [|destruct l1; discriminate].
    destruct H as [[_ H]|(l1 & l2 & E & _)]; [congruence|destruct l1; discriminate]. }
  assert (GI : In g (w0 :: ws)) by (apply strongest_in; [assumption|discriminate]).
  assert (HI : In h (w0 :: ws)) by (apply strongest_in; [assumption|discriminate]).
  pose proof (strongest_max _ _ h G HI) as M1. pose proof (strongest_max _ _ g H GI) as M2.
  destruct G as [[E _]|(l1 & l2 & E & A & B)]; [discriminate|].
  destruct H as [[E' _]|(k1 & k2 & E' & A' & B')]; [discriminate|].
  rewrite E in E'. clear E GI HI B B'.
  revert k1 E' A'. induction l1 as [|x l1 IH]; intros k1 E A'.
  - destruct k1 as [|y k1]; cbn in E; injection E; intros; subst; [reflexivity|].
    exfalso. apply M1. apply A'. left; reflexivity.
  - destruct k1 as [|y k1]; cbn in E; injection E; intros; subst.
    + exfalso. apply M2. apply A. left; reflexivity.
    + apply (IH (fun w I => A w (or_intror I)) k1 H (fun w I => A' w (or_intror I))).
Qed.

(** * Requests up to collapsing *)
Definition weq (a b : list str) : Prop := forall k, collapse_whitespace (a ++ k) = collapse_whitespace (b ++ k).

Lemma weq_refl : forall a, weq a a. Proof. intros a k; reflexivity. Qed.
Lemma weq_app : forall a b c, weq a b -> weq (a ++ c) (b ++ c).
Proof. intros a b c W k. rewrite <- !app_assoc. apply W. Qed.
Lemma weq_eq : forall a b, weq a b -> collapse_whitespace a = collapse_whitespace b.
Proof. intros a b W. specialize (W []). rewrite !app_nil_r in W. exact W. Qed.
Lemma weq_collapse : forall a ws, ws <> [] -> weq (a ++ [collapse_whitespace ws]) (a ++ ws).
Proof.
  intros a ws N k. rewrite <- !app_assoc.
  assert (K : forall k, collapse_whitespace ([collapse_whitespace ws] ++ k) = collapse_whitespace (ws ++ k)).
  { intros k0. destruct k0 as [|x k0]; [rewrite !app_nil_r; reflexivity|].
    rewrite !collapse_app by (try discriminate; assumption). reflexivity. }
  destruct a as [|x a]; [apply K|].
  rewrite !(collapse_app (x :: a)); try discriminate.
  - f_equal. apply K.
  - destruct ws; [congruence|discriminate].
Qed.
Lemma weq_trans : forall a b c, weq a b -> weq b c -> weq a c.
Proof. intros a b c A B k. rewrite A. apply B. Qed.

(** * Points and the layout *)
Definition frag_of (p : point) : frag := Frag (p_span p) (p_text p) (p_modified p).

Inductive repr : list point -> list item -> Prop :=
| repr_nil : repr [] []
| repr_cons p ws ps its :
    ws <> [] -> p_after p = collapse_whitespace ws -> repr ps its ->
    repr (p :: ps) (Req (p_before p) :: Txt (frag_of p) :: map Req ws ++ its).

Lemma repr_app : forall ps its qs jts, repr ps its -> repr qs jts -> repr (ps ++ qs) (its ++ jts).
Proof.
  intros ps its qs jts R Q. induction R as [|p ws ps its N A R IH]; [exact Q|].
  cbn [app]. rewrite <- app_assoc. constructor; assumption.
Qed.

Lemma repr_collapse_last : forall ps its w, repr ps its -> ps <> [] -> repr (collapse_last ps w) (its ++ [Req w]).
Proof.
  intros ps its w R. induction R as [|p ws ps its N A R IH]; intros NE; [congruence|].
  destruct ps as [|q ps].
  - inversion R; subst. cbn [collapse_last]. rewrite app_nil_r.
    set (p' := Point _ _ _ _ _).
    replace ((Req (p_before p) :: Txt (frag_of p) :: map Req ws) ++ [Req w])
      with (Req (p_before p') :: Txt (frag_of p') :: map Req (ws ++ [w]) ++ []).
    2: { rewrite app_nil_r, map_app. reflexivity. }
    constructor; [destruct ws; discriminate| |constructor].
    cbn [p_after p']. unfold p'. rewrite A.
    exact (weq_eq _ _ (weq_trans _ _ _ (weq_app _ _ [w] (weq_collapse [] ws N)) (weq_refl _))).
  - change (collapse_last (p :: q :: ps) w) with (p :: collapse_last (q :: ps) w).
    cbn [app]. rewrite <- app_assoc. constructor; [assumption|assumption|]. apply IH. discriminate.
Qed.

Lemma collapse_last_nil : forall ps w, collapse_last ps w = [] <-> ps = [].
Proof. intros [|p [|q ps]] w; cbn; split; congruence. Qed.

Fixpoint elem_ind2 (P : elem -> Prop) (H : forall a kids, Forall P kids -> P (E a kids)) (e : elem) : P e :=
  match e with
  | E a kids => H a kids ((fix go l : Forall P l := match l with [] => Forall_nil _ | x :: r => Forall_cons _ (elem_ind2 P H x) (go r) end) kids)
  end.

Section Out.
Variable concat_space : attrs -> elem -> elem -> str.

(** Names for the inner loops. *)
Fixpoint child_points (a : attrs) (l : list elem) : res (list point) :=
  match l with
  | [] => Ok []
  | n :: r =>
      let! ps := points concat_space n in
      match r with
      | [] => Ok (match tail_point a with None => collapse_last ps (a_after a) | Some _ => ps end)
      | m :: _ => let! rest := child_points a r in Ok (collapse_last ps (concat_space a n m) ++ rest)
      end
  end.

Fixpoint child_layout (a : attrs) (l : list elem) : list item :=
  match l with
  | [] => []
  | n :: r =>
      layout concat_space n
      ++ (if shown n
          then match r with
               | m :: _ => [Req (concat_space a n m)]
               | [] => if has_tail a then [] else [Req (a_after a)]
               end
          else [])
      ++ child_layout a r
  end.

Fixpoint all_origins (l : list elem) : Prop := match l with [] => True | n :: r => has_origins n /\ all_origins r end.

Lemma points_eq : forall a kids,
  points concat_space (E a kids) =
  (let! hp := head_point a kids in let! body := child_points a kids in Ok (opt_list hp ++ body ++ opt_list (tail_point a))).
Proof.
  intros a kids. cbn [points]. destruct (head_point a kids) as [hp|]; [|reflexivity]. cbn [bindr].
  assert (G : forall l, (fix children (l : list elem) : res (list point) :=
           match l with
           | [] => Ok []
           | n :: r =>
               let! ps := points concat_space n in
               match r with
               | [] => Ok (match tail_point a with None => collapse_last ps (a_after a) | Some _ => ps end)
               | m :: _ => let! rest := children r in Ok (collapse_last ps (concat_space a n m) ++ rest)
               end
           end) l = child_points a l).
  { induction l as [|n r IH]; [reflexivity|]. rewrite IH. reflexivity. }
  rewrite G. reflexivity.
Qed.

Lemma layout_eq : forall a kids,
  layout concat_space (E a kids) =
  (if has_head a
       then [Req (a_before a);
             Txt (Frag (span_of (a_head_origin a)) (a_head a) (a_head_modified a));
             Req (match kids, a_tail a with [], [] => a_after a | _, _ => a_after_head a end)]
       else [])
  ++ child_layout a kids
  ++ (if has_tail a
          then [Req (a_before_tail a);
                Txt (Frag (span_of (a_tail_origin a)) (Ok (a_tail a)) (a_tail_modified a));
                Req (a_after a)]
          else []).
Proof.
  intros a kids. cbn [layout]. f_equal. f_equal.
  induction kids as [|n r IH]; [reflexivity|].
  cbn [child_layout]. rewrite IH. reflexivity.
Qed.

Lemma has_origins_eq : forall a kids, has_origins (E a kids) <-> (a_kind a = Plain \/ a_head_origin a <> Some []) /\ all_origins kids.
Proof.
  intros a kids. cbn [has_origins].
  assert (G : (fix go (l : list elem) : Prop := match l with [] => True | n :: r => has_origins n /\ go r end) kids <-> all_origins kids).
  { induction kids as [|n r IH]; [reflexivity|]. cbn [all_origins]. rewrite IH. reflexivity. }
  rewrite G. reflexivity.
Qed.

Lemma origin_span_of : forall o, o <> [] -> origin_span o = match span_of (Some o) with Some s => Ok s | None => Err IndexError end.
Proof.
  intros [|t r] N; [congruence|]. cbn [origin_span span_of]. do 3 f_equal.
  destruct r as [|t' r]; [reflexivity|]. cbn [last].
  clear N. revert t t'. induction r as [|x r IH]; intros t t'; [reflexivity|]. cbn [last]. apply (IH t x).
Qed.

Lemma head_repr : forall a kids, (a_kind a = Plain \/ a_head_origin a <> Some []) ->
  exists hp, head_point a kids = Ok hp /\
    repr (opt_list hp) (if has_head a
       then [Req (a_before a);
             Txt (Frag (span_of (a_head_origin a)) (a_head a) (a_head_modified a));
             Req (match kids, a_tail a with [], [] => a_after a | _, _ => a_after_head a end)]
       else []) /\ (opt_list hp = [] <-> has_head a = false).
Proof.
  intros a kids O. unfold head_point, has_head.
  assert (G : a_kind a <> Plain ->
    exists hp, (let! span := match a_head_origin a with
                   | None => Ok None
                   | Some o => let! s := origin_span o in Ok (Some s)
                   end in
      let space_after := if negb (Nat.eqb (length kids) 0) || truthy (a_tail a) then a_after_head a else a_after a in
      Ok (Some (Point span (a_head a) (a_head_modified a) (a_before a) space_after))) = Ok hp /\
    repr (opt_list hp) [Req (a_before a);
             Txt (Frag (span_of (a_head_origin a)) (a_head a) (a_head_modified a));
             Req (match kids, a_tail a with [], [] => a_after a | _, _ => a_after_head a end)] /\ (opt_list hp = [] <-> true = false)).
  { intros NP. destruct O as [O|O]; [congruence|].
    set (sa := if negb _ || _ then _ else _).
    assert (SA : sa = match kids, a_tail a with [], [] => a_after a | _, _ => a_after_head a end).
    { unfold sa. destruct kids; destruct (a_tail a); reflexivity. }
    assert (S : (match a_head_origin a with
                   | None => Ok None
                   | Some o => let! s := origin_span o in Ok (Some s)
                   end) = Ok (span_of (a_head_origin a))).
    { destruct (a_head_origin a) as [o|]; [|reflexivity].
      rewrite origin_span_of by congruence. destruct o; [congruence|reflexivity]. }
    rewrite S. cbn [bindr]. eexists; split; [reflexivity|]. cbn [opt_list]. rewrite <- SA. split; [|split; discriminate].
    apply (repr_cons (Point (span_of (a_head_origin a)) (a_head a) (a_head_modified a) (a_before a) sa) [sa] [] []);
      [discriminate|reflexivity|constructor]. }
  destruct (a_kind a) eqn:K.
  - exists None. repeat split; auto; constructor.
  - apply G; congruence.
  - apply G; congruence.
Qed.

Lemma tail_repr : forall a,
  repr (opt_list (tail_point a))
    (if has_tail a
          then [Req (a_before_tail a);
                Txt (Frag (span_of (a_tail_origin a)) (Ok (a_tail a)) (a_tail_modified a));
                Req (a_after a)]
          else []).
Proof.
  intros a. unfold tail_point, has_tail. destruct (a_kind a); try constructor.
  cbn [opt_list].
  assert (S : match a_tail_origin a with None => None | Some o => match origin_span o with Ok s => Some s | Err _ => None end end = span_of (a_tail_origin a)).
  { destruct (a_tail_origin a) as [[|t r]|]; try reflexivity.
    rewrite origin_span_of by discriminate. reflexivity. }
  rewrite S.
  apply (repr_cons (Point (span_of (a_tail_origin a)) (Ok (a_tail a)) (a_tail_modified a) (a_before_tail a) (a_after a)) [a_after a] [] []);
    [discriminate|reflexivity|constructor].
Qed.

Lemma tail_point_none : forall a, tail_point a = None <-> has_tail a = false.
Proof. intros a. unfold tail_point, has_tail. destruct (a_kind a); split; congruence. Qed.

Theorem points_repr : forall e, has_origins e ->
  exists ps, points concat_space e = Ok ps /\ repr ps (layout concat_space e) /\ (ps = [] <-> shown e = false).
Proof.
  induction e as [a kids IH] using elem_ind2. intros O.
  apply has_origins_eq in O. destruct O as [O1 O2].
  destruct (head_repr a kids O1) as (hp & HP & HR & HN).
  assert (B : exists body, child_points a kids = Ok body /\ repr body (child_layout a kids) /\ (body = [] <-> existsb shown kids = false)).
  { clear HP HR HN O1 hp. induction IH as [|n r Pn F IHk]; [exists []; cbn; repeat split; auto; constructor|].
    destruct O2 as [On Or]. destruct (Pn On) as (ps & PS & PR & PN).
    destruct (IHk Or) as (rest & RS & RR & RN).
    cbn [child_points child_layout existsb]. rewrite PS. cbn [bindr].
    destruct r as [|m r].
    - cbn [child_layout]. rewrite app_nil_r, orb_false_r.
      destruct (has_tail a) eqn:HT.
      + destruct (tail_point a) eqn:TP; [|exfalso; apply tail_point_none in TP; congruence].
        exists ps. split; [reflexivity|]. split; [|exact PN].
        destruct (shown n); rewrite app_nil_r; exact PR.
      + apply tail_point_none in HT. rewrite HT. eexists. split; [reflexivity|].
        rewrite collapse_last_nil. split; [|exact PN].
        destruct (shown n).
        * apply repr_collapse_last; [exact PR|]. intros E. apply PN in E. discriminate.
        * assert (E : ps = []) by (apply PN; reflexivity). subst ps. rewrite app_nil_r. exact PR.
    - rewrite RS. cbn [bindr]. eexists. split; [reflexivity|]. split.
      + rewrite app_assoc. apply repr_app; [|exact RR].
        destruct (shown n).
        * apply repr_collapse_last; [exact PR|]. intros E. apply PN in E. discriminate.
        * assert (E : ps = []) by (apply PN; reflexivity). subst ps. rewrite app_nil_r. exact PR.
      + rewrite orb_false_iff, <- PN, <- RN. split.
        * intros E. apply app_eq_nil in E. destruct E as [E1 E2]. apply collapse_last_nil in E1. auto.
        * intros [E1 E2]. subst. reflexivity. }
  destruct B as (body & BS & BR & BN).
  rewrite points_eq, HP. cbn [bindr]. rewrite BS. cbn [bindr].
  eexists. split; [reflexivity|]. split.
  - rewrite layout_eq. apply repr_app; [exact HR|]. apply repr_app; [exact BR|]. apply tail_repr.
  - cbn [shown]. rewrite orb_false_iff, <- HN, <- BN. split.
    + intros E. apply app_eq_nil in E. destruct E as [E1 E2]. apply app_eq_nil in E2. tauto.
    + intros [E1 E2]. rewrite E1, E2. cbn [app].
      assert (T : has_tail a = false).
      { apply HN in E1. unfold has_head, has_tail in *. destruct (a_kind a); congruence. }
      apply tail_point_none in T. rewrite T. reflexivity.
Qed.

End Out.

(** * Joining *)
Fixpoint interleave (secs : list (str * list str)) : list str :=
  match secs with
  | [] => []
  | (t, ws) :: r => t :: match r with [] => [] | _ => collapse_whitespace ws :: interleave r end
  end.

Lemma interleave_joined : forall secs, joined secs (concat (interleave secs)).
Proof.
  induction secs as [|[t ws] r IH]; [constructor|].
  cbn [interleave]. destruct r as [|x r].
  - cbn. rewrite app_nil_r. constructor.
  - cbn [concat]. constructor; [apply strongest_collapse|exact IH].
Qed.

Lemma sections_reqs : forall ws l, sections (map Req ws ++ l) = (ws ++ fst (sections l), snd (sections l)).
Proof.
  induction ws as [|w ws IH]; intros l; [cbn; destruct (sections l); reflexivity|].
  cbn [map app sections]. rewrite IH. reflexivity.
Qed.

Lemma combine_sections : forall ps its, repr ps its -> forall fs, fragments ps = Ok fs ->
  forall result pend real, weq pend real ->
  exists W, combine_loop fs result pend =
    (result ++ (match snd (sections its) with [] => [] | s => collapse_whitespace (real ++ fst (sections its)) :: interleave s end), W)
    /\ weq W (trailing (real ++ fst (sections its)) (snd (sections its))).
Proof.
  intros ps its R. induction R as [|p ws ps its N A R IH]; intros fs F result pend real W.
  - cbn in F. injection F as <-. cbn. rewrite !app_nil_r. eauto.
  - cbn [fragments] in F. destruct (p_text p) as [t|] eqn:PT; [|discriminate]. cbn [bindr] in F.
    destruct (fragments ps) as [fs'|] eqn:FS; [|discriminate]. cbn [bindr] in F. injection F as <-.
    cbn [combine_loop].
    cbn [sections]. rewrite sections_reqs. cbn [frag_of f_text]. rewrite PT.
    specialize (IH fs' eq_refl).
    destruct t as [|c t]; cbn [truthy].
    + destruct (IH result ((pend ++ [p_before p]) ++ [p_after p]) ((real ++ [p_before p]) ++ ws)) as (W' & E & T).
      { rewrite A. eapply weq_trans; [apply weq_collapse; exact N|]. apply weq_app, weq_app, W. }
      exists W'. rewrite E. cbn [fst snd]. split.
      * do 2 f_equal. destruct (snd (sections its)); [reflexivity|]. f_equal. rewrite <- !app_assoc. reflexivity.
      * rewrite <- !app_assoc in T. exact T.
    + destruct (IH (result ++ [collapse_whitespace (pend ++ [p_before p]); c :: t]) [p_after p] ws) as (W' & E & T).
      { rewrite A. apply (weq_collapse [] ws N). }
      exists W'. split.
      * etransitivity; [exact E|]. cbn [fst snd]. rewrite <- app_assoc. do 2 f_equal. cbn [app interleave].
        rewrite (weq_eq _ _ (weq_app _ _ [p_before p] W)). f_equal. f_equal. destruct (snd (sections its)); reflexivity.
      * exact T.
Qed.

Definition section_texts (its : list item) : list str := map fst (snd (sections its)).

Fixpoint text_items (its : list item) : list (res str) :=
  match its with [] => [] | Req _ :: r => text_items r | Txt f :: r => f_text f :: text_items r end.

Lemma text_items_app : forall a b, text_items (a ++ b) = text_items a ++ text_items b.
Proof. induction a as [|[w|f] a IH]; intros b; cbn; rewrite ?IH; reflexivity. Qed.

Lemma layout_texts : forall cs e, text_items (layout cs e) = texts e.
Proof.
  intros cs e. induction e as [a kids IH] using elem_ind2.
  rewrite layout_eq. cbn [texts]. rewrite !text_items_app. f_equal; [destruct (has_head a); reflexivity|]. f_equal.
  - induction IH as [|n r Pn F IHk]; [reflexivity|].
    cbn [child_layout]. rewrite !text_items_app, Pn, IHk.
    assert (Z : text_items (if shown n then match r with | m :: _ => [Req (cs a n m)] | [] => if has_tail a then [] else [Req (a_after a)] end else []) = []).
    { destruct (shown n), r, (has_tail a); reflexivity. }
    rewrite Z. reflexivity.
  - destruct (has_tail a); reflexivity.
Qed.

Lemma section_texts_spec : forall its ts, Forall2 (fun r s => r = Ok s) (text_items its) ts ->
  section_texts its = filter truthy ts.
Proof.
  induction its as [|[w|f] its IH]; intros ts F; unfold section_texts in *.
  - inversion F; reflexivity.
  - cbn [text_items] in F. cbn [sections]. rewrite <- (IH ts F). destruct (sections its); reflexivity.
  - cbn [text_items] in F. inversion F as [|x y l l' E F']; subst. cbn [sections]. rewrite E.
    cbn [filter]. destruct y as [|c t]; cbn [truthy]; [|cbn [map]].
    + rewrite <- (IH _ F'). destruct (sections its); reflexivity.
    + rewrite <- (IH _ F'). destruct (sections its); reflexivity.
Qed.

Lemma repr_texts : forall ps its, repr ps its -> map p_text ps = text_items its.
Proof.
  intros ps its R. induction R as [|p ws ps its N A R IH]; [reflexivity|].
  cbn [map text_items]. rewrite text_items_app.
  assert (Z : text_items (map Req ws) = []) by (clear; induction ws; auto). rewrite Z. cbn. f_equal. exact IH.
Qed.

Lemma fragments_ok : forall ps ts, Forall2 (fun r s => r = Ok s) (map p_text ps) ts -> exists fs, fragments ps = Ok fs.
Proof.
  induction ps as [|p ps IH]; intros ts F; [eexists; reflexivity|].
  cbn [map] in F. inversion F as [|x y l l' E F']; subst. destruct (IH _ F') as (fs & FS).
  cbn [fragments]. rewrite E, FS. eexists; reflexivity.
Qed.

Theorem write_spec : forall cs e ts, has_origins e -> Forall2 (fun r s => r = Ok s) (texts e) ts ->
  exists s, write cs e = Ok s /\ joined (snd (sections (layout cs e))) s /\
    map fst (snd (sections (layout cs e))) = filter truthy ts.
Proof.
  intros cs e ts O F. destruct (points_repr cs e O) as (ps & PS & PR & _).
  assert (F2 : Forall2 (fun r s => r = Ok s) (map p_text ps) ts) by (rewrite (repr_texts _ _ PR), layout_texts; exact F).
  destruct (fragments_ok ps ts F2) as (fs & FS).
  destruct (combine_sections ps _ PR fs FS [] [] [] (weq_refl _)) as (W & C & _).
  unfold write. rewrite PS. cbn [bindr]. rewrite FS. cbn [bindr]. unfold combine_text. rewrite C.
  eexists; split; [reflexivity|]. split.
  - cbn [app]. destruct (snd (sections (layout cs e))) eqn:S; [constructor|].
    cbn [skipn]. apply interleave_joined.
  - apply section_texts_spec. rewrite layout_texts. exact F.
Qed.
