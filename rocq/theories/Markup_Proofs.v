(** Proofs about markup: what elements write, and how that is read. *)
From Coq Require Import String Ascii List Arith ZArith QArith Bool Lia.
From Verif Require Import Base Element_Model Scheme_Model Markup_Model Markup_Spec.
From Verif Require Heads_Model Heads_Spec Heads_Props.
Import ListNotations.
Local Open Scope string_scope. Local Open Scope list_scope. Open Scope nat_scope.

(** ** Trees that are written *)
Inductive wd := WAtom (s : str) | WStr (s : str) | WQuote (d : wd) | WList (l : list wd).
Inductive wm := WWord (s : str) | WString (s : str) | WScm (d : wd) | WGroup (l : list wm) | WCmd (name : str) (l : list wm).
Fixpoint wd_elem (d : wd) : elem :=
  match d with
  | WAtom s => e_text s | WStr s => e_text (Heads_Model.string_write s)
  | WQuote d => E (plain_attrs Head (txt "'") [] []) [wd_elem d] | WList l => e_list (map wd_elem l)
  end.
Fixpoint wd_text (d : wd) : str :=
  match d with
  | WAtom s => s | WStr s => Heads_Model.string_write s | WQuote d => txt "'" ++ wd_text d
  | WList l => txt "(" ++ (fix go l := match l with [] => [] | d :: r => match r with [] => wd_text d | _ => wd_text d ++ txt " " ++ go r end end) l ++ txt ")"
  end.
Fixpoint wd_datum (d : wd) : datum :=
  match d with WAtom s => atom s | WStr s => DStr s | WQuote d => DQuote (wd_datum d) | WList l => DList (map wd_datum l) end.
Fixpoint wm_elem (m : wm) : elem :=
  match m with
  | WWord s => e_word s | WString s => e_string s | WScm d => e_scheme (wd_elem d)
  | WGroup l => e_markuplist (map wm_elem l) | WCmd n l => e_command n (map wm_elem l)
  end.
Fixpoint wm_text (m : wm) : str :=
  match m with
  | WWord s => s | WString s => Heads_Model.string_write s | WScm d => txt "#" ++ wd_text d
  | WGroup l => txt "{" ++ txt " " ++ flat_map (fun m => wm_text m ++ txt " ") l ++ txt "}"
  | WCmd n l => txt "\" ++ n ++ flat_map (fun m => txt " " ++ wm_text m) l
  end.
Fixpoint wm_mt (m : wm) : mt :=
  match m with WWord s | WString s => Text s | WScm d => Scm (wd_datum d) | WGroup l => Group (map wm_mt l) | WCmd n l => Cmd n (map wm_mt l) end.
Lemma wd_ind2 (P : wd -> Prop) : (forall s, P (WAtom s)) -> (forall s, P (WStr s)) -> (forall d, P d -> P (WQuote d)) -> (forall l, Forall P l -> P (WList l)) -> forall d, P d.
Proof. intros H1 H2 H3 H4. fix IH 1. intros [s|s|d|l]; [apply H1|apply H2|apply H3, IH|apply H4]. induction l; constructor; [apply IH|assumption]. Qed.
Lemma wm_ind2 (P : wm -> Prop) : (forall s, P (WWord s)) -> (forall s, P (WString s)) -> (forall d, P (WScm d)) -> (forall l, Forall P l -> P (WGroup l)) -> (forall n l, Forall P l -> P (WCmd n l)) -> forall m, P m.
Proof. intros H1 H2 H3 H4 H5. fix IH 1. intros [s|s|d|l|n l]; [apply H1|apply H2|apply H3|apply H4|apply H5]; (induction l; constructor; [apply IH|assumption]). Qed.

(** ** Writing *)
Definition ws (b : bool) : str := if b then txt " " else [].
Inductive seg : list point -> bool -> str -> bool -> Prop :=
| seg_one p t b a : p_text p = Ok t -> t <> [] -> p_before p = ws b -> p_after p = ws a -> seg [p] b t a
| seg_app ps qs b s a b' s' a' : seg ps b s a -> seg qs b' s' a' -> seg (ps ++ qs) b (s ++ ws (a || b') ++ s') a'.
Lemma seg_ne ps b s a : seg ps b s a -> ps <> [].
Proof. intros S. induction S; [discriminate|]. destruct ps; [contradiction|discriminate]. Qed.
Lemma seg_eq ps b s a s' : seg ps b s a -> s = s' -> seg ps b s' a. Proof. intros S <-. exact S. Qed.
Lemma collapse_app ps qs w : qs <> [] -> collapse_last (ps ++ qs) w = ps ++ collapse_last qs w.
Proof.
  intros N. induction ps as [|p ps IH]; [reflexivity|]. cbn [app]. rewrite <- IH. destruct (ps ++ qs) eqn:E; [|reflexivity]. destruct ps; [destruct qs; [contradiction|discriminate]|discriminate].
Qed.
Lemma collapse_ws a c : collapse_whitespace [ws a; ws c] = ws (a || c).
Proof. destruct a, c; reflexivity. Qed.
Lemma seg_collapse ps b s a c : seg ps b s a -> seg (collapse_last ps (ws c)) b s (a || c).
Proof.
  intros S. induction S as [p t b a T N B A|ps qs b s a b' s' a' S1 IH1 S2 IH2].
  - cbn [collapse_last]. apply seg_one; cbn; try assumption. rewrite A. apply collapse_ws.
  - rewrite collapse_app by (eapply seg_ne; exact S2). apply seg_app; assumption.
Qed.
Lemma seg_combine ps b s a : seg ps b s a -> exists fs, fragments ps = Ok fs /\ forall rest res W w, (forall x, collapse_whitespace (W ++ [ws x]) = ws (w || x)) ->
  exists l, combine_loop (fs ++ rest) res W = combine_loop rest (res ++ ws (w || b) :: l) [ws a] /\ concat l = s.
Proof.
  intros S. induction S as [p t b a T N B A|ps qs b s a b' s' a' S1 IH1 S2 IH2].
  - cbn [fragments]. rewrite T. cbn [bindr]. eexists. split; [reflexivity|]. intros rest res W w H. cbn [app combine_loop]. destruct t as [|c t]; [contradiction|]. cbn [truthy].
    exists [c :: t]. rewrite B, A, H. split; [reflexivity|]. cbn. rewrite app_nil_r. reflexivity.
  - destruct IH1 as (f1 & F1 & C1), IH2 as (f2 & F2 & C2). exists (f1 ++ f2). split.
    + revert f1 F1 C1. clear S1 S2. intros f1 F1 _. revert f1 F1. induction ps as [|p ps IH]; intros f1 F1; [injection F1 as <-; exact F2|].
      cbn [fragments app] in *. destruct (p_text p); [|discriminate]. cbn [bindr] in *. destruct (fragments ps); [|discriminate]. injection F1 as <-. rewrite (IH _ eq_refl). reflexivity.
    + intros rest res W w H. rewrite <- app_assoc. destruct (C1 (f2 ++ rest) res W w H) as (l1 & E1 & K1). rewrite E1. destruct (C2 rest (res ++ ws (w || b) :: l1) [ws a] a) as (l2 & E2 & K2).
      { intros x. apply collapse_ws. }
      rewrite E2. exists (l1 ++ ws (a || b') :: l2). split; [rewrite <- app_assoc; reflexivity|]. rewrite concat_app. cbn [concat]. rewrite K1, K2. reflexivity.
Qed.
Section Write.
Variable cs : attrs -> elem -> elem -> str.
Hypothesis cs_between : forall a n m, cs a n m = a_between a.
Lemma seg_write e ps b s a : points cs e = Ok ps -> seg ps b s a -> write cs e = Ok s.
Proof.
  intros P S. unfold write. rewrite P. cbn [bindr]. destruct (seg_combine _ _ _ _ S) as (fs & F & C). rewrite F. cbn [bindr]. unfold combine_text.
  destruct (C [] [] [] false) as (l & E & K); [destruct x; reflexivity|]. rewrite app_nil_r in E. rewrite E. cbn [combine_loop app firstn skipn concat]. rewrite K. reflexivity.
Qed.
Definition tailed (tp : option point) (a : attrs) (ps : list point) : list point := match tp with None => collapse_last ps (a_after a) | Some _ => ps end.
Definition children (a : attrs) : list elem -> res (list point) :=
  fix children l := match l with
           | [] => Ok []
           | n :: r =>
               let! ps := points cs n in
               match r with
               | [] => Ok (match tail_point a with None => collapse_last ps (a_after a) | Some _ => ps end)
               | m :: _ => let! rest := children r in Ok (collapse_last ps (cs a n m) ++ rest)
               end
           end.
Lemma children_one a n : children a [n] = let! ps := points cs n in Ok (match tail_point a with None => collapse_last ps (a_after a) | Some _ => ps end).
Proof. reflexivity. Qed.
Lemma children_more a n m r : children a (n :: m :: r) = let! ps := points cs n in let! rest := children a (m :: r) in Ok (collapse_last ps (cs a n m) ++ rest).
Proof. reflexivity. Qed.
Lemma points_e a kids : points cs (E a kids) = let! hp := head_point a kids in let! body := children a kids in Ok (opt_list hp ++ body ++ opt_list (tail_point a)).
Proof. reflexivity. Qed.
(** [shows e s]: the element writes the text, between possible whitespace *)
Definition shows (e : elem) (s : str) : Prop := exists ps b a, points cs e = Ok ps /\ seg ps b s a.
Definition tight (e : elem) (s : str) : Prop := exists ps, points cs e = Ok ps /\ seg ps false s false.
Lemma tight_shows e s : tight e s -> shows e s. Proof. intros (ps & P & S). exists ps, false, false. auto. Qed.
Fixpoint spaced (l : list str) : str := match l with [] => [] | [s] => s | s :: r => s ++ txt " " ++ spaced r end.
Lemma children_shows a kids ss : a_between a = txt " " -> (exists x, a_after a = ws x) -> kids <> [] -> Forall2 shows kids ss -> exists ps b c, children a kids = Ok ps /\ seg ps b (spaced ss) c.
Proof.
  intros B (x & A) N F. induction F as [|k s kids ss S F IH]; [contradiction|]. destruct S as (ps & b & c & P & S).
  destruct F as [|k' s' kids' ss' S' F'].
  - rewrite children_one, P. cbn [bindr]. destruct (tail_point a); [exists ps, b, c|exists (collapse_last ps (a_after a)), b, (c || x)]; (split; [reflexivity|]); [exact S|]. rewrite A. apply seg_collapse. exact S.
  - destruct IH as (qs & b' & c' & Q & SQ); [discriminate|]. rewrite children_more, P, Q. cbn [bindr]. rewrite cs_between, B. exists (collapse_last ps (ws true) ++ qs), b, c'. split; [reflexivity|].
    replace (spaced (s :: s' :: ss')) with (s ++ ws ((c || true) || b') ++ spaced (s' :: ss')) by (rewrite orb_true_r; reflexivity). apply seg_app; [apply seg_collapse; exact S|exact SQ].
Qed.
Lemma children_tight a kids ss : a_between a = txt " " -> a_after a = [] -> kids <> [] -> Forall2 tight kids ss -> exists ps, children a kids = Ok ps /\ seg ps false (spaced ss) false.
Proof.
  intros B A N F. induction F as [|k s kids ss S F IH]; [contradiction|]. destruct S as (ps & P & S).
  destruct F as [|k' s' kids' ss' S' F'].
  - rewrite children_one, P. cbn [bindr]. destruct (tail_point a); [exists ps|exists (collapse_last ps (a_after a))]; (split; [reflexivity|]); [exact S|]. rewrite A. change (@nil ascii) with (ws false). apply (seg_collapse ps false s false false). exact S.
  - destruct IH as (qs & Q & SQ); [discriminate|]. rewrite children_more, P, Q. cbn [bindr]. rewrite cs_between, B. exists (collapse_last ps (ws true) ++ qs). split; [reflexivity|].
    change (spaced (s :: s' :: ss')) with (s ++ ws ((false || true) || false) ++ spaced (s' :: ss')). apply seg_app; [apply seg_collapse; exact S|exact SQ].
Qed.
Lemma tight_text s : s <> [] -> tight (e_text s) s.
Proof. intros N. eexists. split; [reflexivity|]. cbn [opt_list app]. apply seg_one; auto. Qed.
Lemma string_ne s : Heads_Model.string_write s <> []. Proof. discriminate. Qed.
Fixpoint wd_ok (d : wd) : Prop := match d with WAtom s => sane s | WStr _ => True | WQuote d => wd_ok d | WList l => (fix go l := match l with [] => True | d :: r => wd_ok d /\ go r end) l end.
Lemma wd_ok_list l : wd_ok (WList l) <-> Forall wd_ok l.
Proof. cbn [wd_ok]. induction l as [|d l IH]; [split; [constructor|reflexivity]|]. rewrite IH. split; [intros [A B]; constructor; assumption|intros F; inversion F; auto]. Qed.
Lemma wd_text_list l : wd_text (WList l) = txt "(" ++ spaced (map wd_text l) ++ txt ")".
Proof. cbn [wd_text]. f_equal. f_equal. induction l as [|d l IH]; [reflexivity|]. rewrite IH. destruct l; reflexivity. Qed.
Lemma wd_tight : forall d, wd_ok d -> tight (wd_elem d) (wd_text d).
Proof.
  induction d as [s|s|d IH|l IH] using wd_ind2; intros O.
  - apply tight_text, O.
  - apply tight_text, string_ne.
  - destruct (IH O) as (ps & P & S). cbn [wd_elem]. unfold tight. rewrite points_e. cbn [children]. rewrite P. cbn [bindr head_point a_kind plain_attrs a_head_origin tail_point opt_list a_after]. eexists. split; [reflexivity|]. rewrite app_nil_r.
    cbn [wd_text]. change (txt "'" ++ wd_text d) with (txt "'" ++ ws (false || false) ++ wd_text d). change (@nil ascii) with (ws false) at 3. apply seg_app; [apply seg_one; try reflexivity; discriminate|].
    apply (seg_collapse ps false (wd_text d) false false S).
  - apply wd_ok_list in O. rewrite wd_text_list. cbn [wd_elem]. unfold e_list, tight. rewrite points_e. set (a := plain_attrs Block (txt "(") (txt ")") (txt " ")).
    change (tail_point a) with (Some (Point None (Ok (txt ")")) false [] [])). replace (head_point a (map wd_elem l)) with (Ok (Some (Point None (Ok (txt "(")) false [] []))) by (unfold head_point; cbn; rewrite orb_true_r; reflexivity).
    cbn [bindr opt_list]. destruct l as [|d l].
    + eexists. split; [reflexivity|]. change (txt "(" ++ spaced (map wd_text []) ++ txt ")") with (txt "(" ++ ws (false || false) ++ txt ")"). apply (seg_app [_] [_]); (apply seg_one; try reflexivity; discriminate).
    + assert (K : exists ps, children a (map wd_elem (d :: l)) = Ok ps /\ seg ps false (spaced (map wd_text (d :: l))) false).
      { apply children_tight; [reflexivity|reflexivity|discriminate|]. clear - O IH. revert O IH. generalize (d :: l). intros l0 O IH. induction IH as [|x l0 H F IHF]; [constructor|]. inversion O; subst. cbn [map]. constructor; auto. }
      destruct K as (ps & P & S). rewrite P. cbn [bindr]. eexists. split; [reflexivity|].
      change (txt "(" ++ spaced (map wd_text (d :: l)) ++ txt ")") with (txt "(" ++ ws (false || false) ++ (spaced (map wd_text (d :: l)) ++ ws (false || false) ++ txt ")")).
      apply (seg_app [_]); [apply seg_one; try reflexivity; discriminate|]. apply seg_app; [exact S|apply seg_one; try reflexivity; discriminate].
Qed.
Fixpoint wm_ok (m : wm) : Prop :=
  match m with
  | WWord s => s <> [] /\ forallb word_char s = true | WString _ => True | WScm d => wd_ok d
  | WGroup l => (fix go l := match l with [] => True | d :: r => wm_ok d /\ go r end) l
  | WCmd n l => forallb name_char n = true /\ (fix go l := match l with [] => True | d :: r => wm_ok d /\ go r end) l
  end.
Lemma wm_ok_group l : wm_ok (WGroup l) <-> Forall wm_ok l.
Proof. cbn [wm_ok]. induction l as [|d l IH]; [split; [constructor|reflexivity]|]. rewrite IH. split; [intros [A B]; constructor; assumption|intros F; inversion F; auto]. Qed.
Lemma wm_ok_cmd n l : wm_ok (WCmd n l) <-> forallb name_char n = true /\ Forall wm_ok l.
Proof. change (wm_ok (WCmd n l)) with (forallb name_char n = true /\ wm_ok (WGroup l)). rewrite wm_ok_group. reflexivity. Qed.
Lemma spaced_after l : l <> [] -> spaced l ++ txt " " = flat_map (fun s => s ++ txt " ") l.
Proof. intros N. induction l as [|s l IH]; [contradiction|]. destruct l as [|t l]; [cbn; rewrite app_nil_r; reflexivity|]. cbn [spaced flat_map] in *. rewrite <- IH by discriminate. rewrite <- !app_assoc. reflexivity. Qed.
Lemma spaced_before l : l <> [] -> txt " " ++ spaced l = flat_map (fun s => txt " " ++ s) l.
Proof. intros N. induction l as [|s l IH]; [contradiction|]. destruct l as [|t l]; [cbn; rewrite app_nil_r; reflexivity|]. cbn [spaced flat_map] in *. rewrite <- IH by discriminate. rewrite <- !app_assoc. reflexivity. Qed.
Lemma flat_map_map {A B C} (f : B -> list C) (g : A -> B) l : flat_map f (map g l) = flat_map (fun x => f (g x)) l.
Proof. induction l; [reflexivity|]. cbn. rewrite IHl. reflexivity. Qed.
Lemma kids_shows l : Forall (fun m => wm_ok m -> shows (wm_elem m) (wm_text m)) l -> Forall wm_ok l -> Forall2 shows (map wm_elem l) (map wm_text l).
Proof. intros F O. induction F; [constructor|]. inversion O; subst. cbn [map]. constructor; auto. Qed.
(** A command, also \markup: [t] tells whether whitespace follows it. *)
Lemma command_shows n kids ss x : Forall2 shows kids ss -> shows (E (spaced_attrs Head (txt "\" ++ n) [] [] (txt " ") (txt " ") x []) kids) (txt "\" ++ n ++ flat_map (fun s => txt " " ++ s) ss).
Proof.
  intros F. unfold shows. rewrite points_e. set (a := spaced_attrs _ _ _ _ _ _ _ _). change (tail_point a) with (@None point). cbn [opt_list]. destruct F as [|k s kids ss S F].
  - eexists _, _, _. split; [reflexivity|]. cbn [flat_map]. rewrite (app_nil_r n). apply (seg_one _ _ false false); try reflexivity; intros X; discriminate X.
  - destruct (children_shows a (k :: kids) (s :: ss)) as (ps & b & c & P & SS); [reflexivity|exists false; reflexivity|discriminate|constructor; assumption|]. rewrite P. cbn [bindr head_point a_kind a spaced_attrs a_head_origin opt_list].
    eexists _, _, _. split; [reflexivity|]. rewrite app_nil_r, <- spaced_before by discriminate. replace (txt "\" ++ n ++ txt " " ++ spaced (s :: ss)) with ((txt "\" ++ n) ++ ws (true || b) ++ spaced (s :: ss)) by (rewrite <- app_assoc; reflexivity).
    apply (seg_app [_]); [apply (seg_one _ _ false); try reflexivity; discriminate|exact SS].
Qed.
Lemma wm_shows : forall m, wm_ok m -> shows (wm_elem m) (wm_text m).
Proof.
  induction m as [s|s|d|l IH|n l IH] using wm_ind2; intros O.
  - destruct O as [N _]. eexists _, true, true. split; [reflexivity|]. cbn [opt_list app]. apply seg_one; auto.
  - apply tight_shows, tight_text, string_ne.
  - destruct (wd_tight d O) as (ps & P & S). cbn [wm_elem]. unfold e_scheme, shows. rewrite points_e. cbn [children]. rewrite P. cbn [bindr]. eexists _, true, true. split; [reflexivity|]. cbn [opt_list]. rewrite app_nil_r.
    cbn [wm_text]. change (txt "#" ++ wd_text d) with (txt "#" ++ ws (false || false) ++ wd_text d). apply (seg_app [_]); [apply (seg_one _ _ true false); try reflexivity; discriminate|]. apply (seg_collapse ps false _ false true S).
  - apply wm_ok_group in O. pose proof (kids_shows l IH O) as F. cbn [wm_elem wm_text]. unfold e_markuplist, shows. rewrite points_e. set (a := spaced_attrs _ _ _ _ _ _ _ _).
    change (tail_point a) with (Some (Point None (Ok (txt "}")) false (txt " ") [])). replace (head_point a (map wm_elem l)) with (Ok (Some (Point None (Ok (txt "{")) false [] (txt " ")))) by (unfold head_point; cbn; rewrite orb_true_r; reflexivity).
    cbn [bindr opt_list]. destruct l as [|m l].
    + eexists _, false, false. split; [reflexivity|]. change (txt "{" ++ txt " " ++ flat_map (fun m => wm_text m ++ txt " ") [] ++ txt "}") with (txt "{" ++ ws (true || true) ++ txt "}"). apply (seg_app [_] [_] false _ true true _ false); (apply seg_one; try reflexivity; discriminate).
    + destruct (children_shows a (map wm_elem (m :: l)) (map wm_text (m :: l))) as (ps & b & c & P & SS); [reflexivity|exists false; reflexivity|discriminate|exact F|]. rewrite P. cbn [bindr]. eexists _, false, false. split; [reflexivity|].
      rewrite <- (flat_map_map (fun s => s ++ txt " ") wm_text), <- spaced_after by discriminate.
      assert (H : txt "{" ++ ws (true || b) ++ (spaced (map wm_text (m :: l)) ++ ws (c || true) ++ txt "}") = txt "{" ++ txt " " ++ (spaced (map wm_text (m :: l)) ++ txt " ") ++ txt "}") by (rewrite orb_true_r, <- !app_assoc; reflexivity).
      eapply seg_eq; [|exact H]. apply (seg_app [_]); [apply seg_one; try reflexivity; discriminate|]. apply seg_app; [exact SS|apply seg_one; try reflexivity; discriminate].
  - apply wm_ok_cmd in O as [_ O]. cbn [wm_elem wm_text]. unfold e_command. rewrite <- (flat_map_map (fun s => txt " " ++ s) wm_text). apply command_shows. apply kids_shows; assumption.
Qed.
(** \markup and \markuplist *)
Lemma markup_writes n m : wm_ok m -> write cs (e_markup n [wm_elem m]) = Ok (txt "\" ++ n ++ txt " " ++ wm_text m).
Proof.
  intros O. destruct (wm_shows m O) as (ps & b & a & P & S). eapply seg_write.
  - unfold e_markup. rewrite points_e. cbn [children]. rewrite P. reflexivity.
  - cbn [opt_list]. rewrite app_nil_r. replace (txt "\" ++ n ++ txt " " ++ wm_text m) with ((txt "\" ++ n) ++ ws (true || b) ++ wm_text m) by (rewrite <- app_assoc; reflexivity).
    apply (seg_app [_]); [apply (seg_one _ _ false true); try reflexivity; discriminate|]. apply (seg_collapse ps b _ a true S).
Qed.
End Write.

(** ** Reading *)
Ltac bits c := destruct c as [[] [] [] [] [] [] [] []].
Lemma span_app f t rest : forallb f t = true -> (match rest with [] => true | c :: _ => negb (f c) end) = true -> span f (t ++ rest) = (t, rest).
Proof.
  intros F R. induction t as [|c t IH].
  - destruct rest as [|c r]; [reflexivity|]. cbn. destruct (f c); [discriminate|reflexivity].
  - cbn in *. destruct (f c); [|discriminate]. rewrite (IH F). reflexivity.
Qed.
Lemma literal_plain c r : c <> """"%char -> c <> "\"%char -> literal (c :: r) = match literal r with Some (a, b) => Some (c :: a, b) | None => None end.
Proof. intros Q B. bits c; try reflexivity; congruence. Qed.
Lemma literal_string s rest : literal (flat_map Heads_Model.escape_char s ++ """"%char :: rest) = Some (s, rest).
Proof.
  induction s as [|c s IH]; [reflexivity|]. cbn [flat_map]. unfold Heads_Model.escape_char at 1. destruct (Ascii.eqb_spec c Heads_Model.backslash) as [->|B].
  - cbn [orb app]. cbn [literal Heads_Model.backslash]. rewrite IH. reflexivity.
  - cbn [orb]. destruct (Ascii.eqb_spec c Heads_Model.quote) as [->|Q].
    + cbn [app]. cbn [literal Heads_Model.backslash Heads_Model.quote]. rewrite IH. reflexivity.
    + cbn [app]. rewrite literal_plain, IH; auto.
Qed.
Lemma write_cons s rest : Heads_Model.string_write s ++ rest = """"%char :: flat_map Heads_Model.escape_char s ++ """"%char :: rest.
Proof. unfold Heads_Model.string_write. cbn [app]. rewrite <- app_assoc. reflexivity. Qed.
Definition ends (f : ascii -> bool) (rest : str) : Prop := (match rest with [] => true | c :: _ => negb (f c) end) = true.
Lemma datum_atom f c r : atom_char c = true -> read_datum (S f) (c :: r) = match span atom_char (c :: r) with ([], _) => None | (t, r) => Some (atom t, r) end.
Proof. intros A. bits c; try reflexivity; discriminate A. Qed.
Lemma items_more f c r : blank c = false -> c <> ")"%char -> read_items (S f) (c :: r) = match read_datum f (c :: r) with
  | Some (d, r) => match read_items f r with Some (l, r) => Some (d :: l, r) | None => None end | None => None end.
Proof. intros B N. cbn [read_items]. assert (S : skip_blank (c :: r) = c :: r) by (cbn [skip_blank]; rewrite B; reflexivity). rewrite S. bits c; try reflexivity; congruence. Qed.
Lemma items_blank f r : read_items f (txt " " ++ r) = read_items f r.
Proof. destruct f; reflexivity. Qed.
Lemma wd_first d : wd_ok d -> exists c r, wd_text d = c :: r /\ blank c = false /\ c <> ")"%char.
Proof.
  destruct d as [s|s|d|l]; intros O; cbn [wd_text].
  - destruct O as [N A]. destruct s as [|c s]; [contradiction|]. exists c, s. cbn in A. apply andb_prop in A as [A _]. unfold atom_char in A. split; [reflexivity|]. split; [destruct (blank c); [discriminate|reflexivity]|].
    intros ->. discriminate A.
  - eexists _, _. split; [reflexivity|]. split; [reflexivity|discriminate].
  - eexists _, _. split; [reflexivity|]. split; [reflexivity|discriminate].
  - eexists _, _. split; [reflexivity|]. split; [reflexivity|discriminate].
Qed.
Lemma read_wd : forall d, wd_ok d -> exists N, forall f rest, N <= f -> ends atom_char rest -> read_datum f (wd_text d ++ rest) = Some (wd_datum d, rest).
Proof.
  induction d as [s|s|d IH|l IH] using wd_ind2; intros O.
  - exists 1. intros f rest L E. destruct f as [|f]; [lia|]. destruct O as [N A]. destruct s as [|c s]; [contradiction|]. cbn [wd_text wd_datum app]. rewrite datum_atom by (cbn in A; apply andb_prop in A; apply A).
    change (c :: s ++ rest) with ((c :: s) ++ rest). rewrite span_app by assumption. reflexivity.
  - exists 1. intros f rest L E. destruct f as [|f]; [lia|]. cbn [wd_text wd_datum]. rewrite write_cons. cbn [read_datum]. rewrite literal_string. reflexivity.
  - destruct (IH O) as (N & H). exists (S N). intros f rest L E. destruct f as [|f]; [lia|]. cbn [wd_text wd_datum]. cbn [txt list_ascii_of_string app read_datum]. rewrite H by (assumption || lia). reflexivity.
  - apply wd_ok_list in O. assert (K : exists N, forall f rest, N <= f -> read_items f (spaced (map wd_text l) ++ txt ")" ++ rest) = Some (map wd_datum l, rest)).
    { clear - O IH. induction IH as [|d l H F IHF]; [exists 1; intros [|f] rest L; [lia|reflexivity]|]. inversion O as [|? ? OD OL]; subst. destruct (H OD) as (N1 & H1). destruct (IHF OL) as (N2 & H2). exists (S (N1 + N2)). intros f rest L. destruct f as [|f]; [lia|].
      destruct (wd_first d OD) as (c & r & W & B & NP).
      assert (E : spaced (map wd_text (d :: l)) ++ txt ")" ++ rest = wd_text d ++ (match l with [] => [] | _ => txt " " ++ spaced (map wd_text l) end ++ txt ")" ++ rest)) by (destruct l; cbn [map spaced]; rewrite <- ?app_assoc; reflexivity).
      rewrite E. assert (ED : ends atom_char (match l with [] => [] | _ => txt " " ++ spaced (map wd_text l) end ++ txt ")" ++ rest)) by (destruct l; reflexivity).
      pose proof (H1 f _ ltac:(lia) ED) as R. rewrite W in *. cbn [app] in *. rewrite items_more by assumption. rewrite R. destruct l as [|d' l].
      - cbn [app]. change (txt ")" ++ rest) with (spaced (map wd_text []) ++ txt ")" ++ rest). rewrite H2 by lia. reflexivity.
      - rewrite <- app_assoc, items_blank, H2 by lia. reflexivity. }
    destruct K as (N & H). exists (S N). intros f rest L E. destruct f as [|f]; [lia|]. rewrite wd_text_list. rewrite <- !app_assoc. change (txt "(" ++ ?x) with ("("%char :: x). cbn [read_datum]. rewrite (H f rest) by lia. reflexivity.
Qed.

Section Read.
Variable arity : str -> option nat.
Fixpoint wm_arity (m : wm) : Prop :=
  match m with
  | WGroup l => (fix go l := match l with [] => True | d :: r => wm_arity d /\ go r end) l
  | WCmd n l => arity n = Some (length l) /\ (fix go l := match l with [] => True | d :: r => wm_arity d /\ go r end) l
  | _ => True
  end.
Lemma wm_arity_group l : wm_arity (WGroup l) <-> Forall wm_arity l.
Proof. cbn [wm_arity]. induction l as [|d l IH]; [split; [constructor|reflexivity]|]. rewrite IH. split; [intros [A B]; constructor; assumption|intros F; inversion F; auto]. Qed.
Lemma wm_arity_cmd n l : wm_arity (WCmd n l) <-> arity n = Some (length l) /\ Forall wm_arity l.
Proof. change (wm_arity (WCmd n l)) with (arity n = Some (length l) /\ wm_arity (WGroup l)). rewrite wm_arity_group. reflexivity. Qed.
Lemma markup_word f c r : word_char c = true -> read_markup arity (S f) (c :: r) = match span word_char (c :: r) with ([], _) => None | (t, r) => Some (Text t, r) end.
Proof. intros A. bits c; try reflexivity; discriminate A. Qed.
Lemma markup_command f r : read_markup arity (S f) ("\"%char :: r) = let (name, r) := span name_char r in
  match arity name with Some n => match read_args arity f n r with Some (l, r) => Some (Cmd name l, r) | None => None end | None => None end.
Proof. reflexivity. Qed.
Lemma group_more f c r : blank c = false -> c <> "}"%char -> read_group arity (S f) (c :: r) = match read_markup arity f (c :: r) with
  | Some (m, r) => match read_group arity f r with Some (l, r) => Some (m :: l, r) | None => None end | None => None end.
Proof. intros B N. cbn [read_group]. assert (S : skip_blank (c :: r) = c :: r) by (cbn [skip_blank]; rewrite B; reflexivity). rewrite S. bits c; try reflexivity; congruence. Qed.
Lemma group_blank f r : read_group arity f (txt " " ++ r) = read_group arity f r.
Proof. destruct f; reflexivity. Qed.
Lemma markup_blank f r : read_markup arity f (txt " " ++ r) = read_markup arity f r.
Proof. destruct f; reflexivity. Qed.
Lemma wm_first m : wm_ok m -> exists c r, wm_text m = c :: r /\ blank c = false /\ c <> "}"%char.
Proof.
  destruct m as [s|s|d|l|n l]; intros O; cbn [wm_text].
  - destruct O as [N A]. destruct s as [|c s]; [contradiction|]. exists c, s. cbn in A. apply andb_prop in A as [A _]. unfold word_char in A. split; [reflexivity|]. split; [destruct (blank c); [discriminate|reflexivity]|].
    intros ->. discriminate A.
  - eexists _, _. split; [reflexivity|]. split; [reflexivity|discriminate].
  - eexists _, _. split; [reflexivity|]. split; [reflexivity|discriminate].
  - eexists _, _. split; [reflexivity|]. split; [reflexivity|discriminate].
  - eexists _, _. split; [reflexivity|]. split; [reflexivity|discriminate].
Qed.
(** What follows: nothing, or a space. *)
Definition stop (rest : str) : Prop := match rest with [] => True | c :: _ => c = " "%char end.
Lemma stop_ends f rest : f " "%char = false -> stop rest -> ends f rest.
Proof. unfold ends. intros F S. destruct rest as [|c r]; [reflexivity|]. cbn in S. subst c. rewrite F. reflexivity. Qed.
Definition readable (m : wm) : Prop := exists N, forall f rest, N <= f -> stop rest -> read_markup arity f (wm_text m ++ rest) = Some (wm_mt m, rest).
Lemma read_args_ok l : Forall readable l -> exists N, forall f rest, N <= f -> stop rest -> read_args arity f (length l) (flat_map (fun m => txt " " ++ wm_text m) l ++ rest) = Some (map wm_mt l, rest).
Proof.
  intros F. induction F as [|m l (N1 & H1) F (N2 & H2)].
  - exists 1. intros [|f] rest L S; [lia|reflexivity].
  - exists (S (N1 + N2)). intros [|f] rest L S; [lia|]. cbn [flat_map length read_args map]. rewrite <- !app_assoc. rewrite markup_blank, H1 by (lia || (destruct l; [exact S|reflexivity])). rewrite H2 by (lia || exact S). reflexivity.
Qed.
Lemma read_wm : forall m, wm_ok m -> wm_arity m -> readable m.
Proof.
  induction m as [s|s|d|l IH|n l IH] using wm_ind2; intros O A.
  - exists 1. intros [|f] rest L E; [lia|]. destruct O as [N W]. destruct s as [|c s]; [contradiction|]. cbn [wm_text wm_mt app]. rewrite markup_word by (cbn in W; apply andb_prop in W; apply W).
    change (c :: s ++ rest) with ((c :: s) ++ rest). rewrite span_app; [reflexivity|exact W|apply stop_ends; [reflexivity|exact E]].
  - exists 1. intros [|f] rest L E; [lia|]. cbn [wm_text wm_mt]. rewrite write_cons. cbn [read_markup skip_blank]. change (blank """"%char) with false. cbn match. rewrite literal_string. reflexivity.
  - destruct (read_wd d O) as (N & H). exists (S N). intros [|f] rest L E; [lia|]. cbn [wm_text wm_mt]. cbn [txt list_ascii_of_string app read_markup skip_blank]. change (blank "#"%char) with false. cbn match. rewrite H; [reflexivity|lia|apply stop_ends; [reflexivity|exact E]].
  - apply wm_ok_group in O. apply wm_arity_group in A.
    assert (K : exists N, forall f rest, N <= f -> read_group arity f (flat_map (fun m => wm_text m ++ txt " ") l ++ txt "}" ++ rest) = Some (map wm_mt l, rest)).
    { clear - O A IH. induction IH as [|m l H F IHF]; [exists 1; intros [|f] rest L; [lia|reflexivity]|]. inversion O as [|? ? OD OL]; subst. inversion A as [|? ? AD AL]; subst. destruct (H OD AD) as (N1 & H1). destruct (IHF OL AL) as (N2 & H2). exists (S (N1 + N2)). intros [|f] rest L; [lia|].
      destruct (wm_first m OD) as (c & r & W & B & NP). cbn [flat_map map]. rewrite <- !app_assoc. pose proof (H1 f (txt " " ++ flat_map (fun m => wm_text m ++ txt " ") l ++ txt "}" ++ rest) ltac:(lia) eq_refl) as R. rewrite W in *. cbn [app] in R |- *. rewrite group_more by assumption.
      cbn [app txt list_ascii_of_string] in R |- *. rewrite R. change (" "%char :: flat_map (fun m0 => wm_text m0 ++ [" "%char]) l ++ "}"%char :: rest) with (txt " " ++ (flat_map (fun m0 => wm_text m0 ++ txt " ") l ++ txt "}" ++ rest)). rewrite group_blank, H2 by lia. reflexivity. }
    destruct K as (N & H). exists (S N). intros [|f] rest L E; [lia|]. cbn [wm_text wm_mt]. rewrite <- !app_assoc. change (txt "{" ++ ?x) with ("{"%char :: x). cbn [read_markup skip_blank]. change (blank "{"%char) with false. cbn match. rewrite group_blank, (H f rest) by lia. reflexivity.
  - apply wm_ok_cmd in O as [NC O]. apply wm_arity_cmd in A as [AR A]. destruct (read_args_ok l) as (N & H).
    { clear - IH O A. induction IH; [constructor|]. inversion O; inversion A; subst. constructor; auto. }
    exists (S N). intros [|f] rest L E; [lia|]. cbn [wm_text wm_mt]. rewrite <- !app_assoc. change (txt "\" ++ ?x) with ("\"%char :: x). rewrite markup_command.
    rewrite span_app; [|exact NC|apply stop_ends; [reflexivity|destruct l; [exact E|reflexivity]]]. rewrite AR. rewrite (H f rest) by (lia || exact E). reflexivity.
Qed.
End Read.
