(** Theorems about reading music: C87, C88, C89. *)
From Coq Require Import List Bool PeanoNat Lia Permutation.
From Verif Require Import Base Music_Model Music_Spec.
Import ListNotations.
Open Scope nat_scope.

Lemma tree_induction (P : tree -> Prop) : (forall k h kids tl, Forall P kids -> P (N k h kids tl)) -> forall t, P t.
Proof. intros H. fix rec 1. intros [k h kids tl]. apply H. induction kids as [|x kids IH]; constructor; [apply rec|exact IH]. Qed.

(** ** Popping comments *)
Definition go_pop := fix go (l : list tree) : list tree * list tree :=
  match l with
  | [] => ([], [])
  | x :: r => match go r with ([], cs) => if is_comment x then ([], x :: cs) else let (x, cs') := pop_comments x in ([x], cs' ++ cs) | (r, cs) => (x :: r, cs) end
  end.
Lemma pop_unfold k h kids tl : pop_comments (N k h kids tl) = let (kids, cs) := go_pop kids in (N k h kids tl, cs).
Proof. reflexivity. Qed.
Lemma comment_is t : comment t -> is_comment t = true.
Proof. unfold comment, is_comment. intros ->. reflexivity. Qed.
Lemma go_comments cs : Forall comment cs -> go_pop cs = ([], cs).
Proof. intros F. induction F as [|x cs H F IH]; [reflexivity|]. cbn [go_pop]. fold go_pop. rewrite IH, (comment_is _ H). reflexivity. Qed.
Lemma go_app l cs : Forall comment cs -> go_pop (l ++ cs) = let (l', c) := go_pop l in (l', c ++ cs).
Proof.
  intros F. induction l as [|x l IH]; [exact (go_comments cs F)|]. cbn [app go_pop]. fold go_pop. rewrite IH. destruct (go_pop l) as ([|y r], c); [|reflexivity].
  destruct (is_comment x); [reflexivity|]. destruct (pop_comments x). rewrite app_assoc. reflexivity.
Qed.
Lemma go_quiet l x : is_comment x = false -> pop_comments x = (x, []) -> go_pop (l ++ [x]) = (l ++ [x], []).
Proof.
  intros C P. induction l as [|y l IH]; [cbn [app go_pop]; rewrite C, P; reflexivity|]. cbn [app go_pop]. fold go_pop. rewrite IH. destruct (l ++ [x]) eqn:E; [destruct l; discriminate|reflexivity].
Qed.
Lemma quiet_not_comment t : quiet t -> is_comment t = false.
Proof. intros []; unfold is_comment; cbn [kind_of]; destruct k; congruence. Qed.
Lemma pop_quiet t : quiet t -> pop_comments t = (t, []).
Proof.
  intros Q. induction Q as [k h tl K|k h kids t tl K Q IH]; rewrite pop_unfold; [reflexivity|]. rewrite (go_quiet kids t (quiet_not_comment t Q) IH). reflexivity.
Qed.
(** Nothing, or something that does not end with a comment. *)
Definition calm (l : list tree) : Prop := l = [] \/ exists a x, l = a ++ [x] /\ quiet x.
Lemma pop_calm k h l cs tl : calm l -> Forall comment cs -> pop_comments (N k h (l ++ cs) tl) = (N k h l tl, cs).
Proof.
  intros [->|(a & x & -> & Q)] F; rewrite pop_unfold.
  - rewrite (go_app [] cs F). reflexivity.
  - rewrite (go_app (a ++ [x]) cs F), (go_quiet a x (quiet_not_comment x Q) (pop_quiet x Q)). reflexivity.
Qed.
Lemma calm_forall l : Forall quiet l -> calm l.
Proof. intros F. destruct l as [|x l]; [left; reflexivity|right]. destruct (@exists_last _ (x :: l)) as (a & y & E); [discriminate|]. exists a, y. split; [exact E|]. rewrite E in F. apply Forall_app in F. destruct F as (_ & F). inversion F. assumption. Qed.

Definition spread (l : list (tree * list tree)) : list tree := flat_map (fun x => fst x :: snd x) l.
Lemma between_spec l : l <> [] -> Forall (fun x => quiet (fst x) /\ Forall comment (snd x)) l ->
  spread l = fst (between l) ++ snd (between l) /\ calm (fst (between l)) /\ Forall comment (snd (between l)).
Proof.
  intros NE F. induction F as [|(t, cs) l (Q & C) F IH]; [contradiction|]. destruct l as [|y l].
  - cbn [spread flat_map between fst snd app] in *. rewrite app_nil_r. split; [reflexivity|]. split; [|exact C]. right. exists [], t. split; [reflexivity|exact Q].
  - destruct IH as (A & B & D); [discriminate|]. change (between ((t, cs) :: y :: l)) with (t :: cs ++ fst (between (y :: l)), snd (between (y :: l))). unfold spread in *. cbn [flat_map fst snd] in *. rewrite A. split; [cbn [app]; rewrite <- app_assoc; reflexivity|]. split; [|exact D].
    destruct B as [B|(a & x & B & Qx)].
    + destruct y as (y, cy). destruct l as [|z l]; discriminate B.
    + right. exists (t :: cs ++ a), x. rewrite B. split; [cbn [app]; rewrite <- app_assoc; reflexivity|exact Qx].
Qed.

(** ** Running *)
Inductive runs : st -> list item -> st -> list tree -> Prop :=
| runs_nil s : runs s [] s []
| runs_cons s i l s1 s2 o1 o2 : step s i = Ok (s1, o1) -> runs s1 l s2 o2 -> runs s (i :: l) s2 (o1 ++ o2).
Lemma runs_app s l s1 o1 r s2 o2 : runs s l s1 o1 -> runs s1 r s2 o2 -> runs s (l ++ r) s2 (o1 ++ o2).
Proof. intros R1. induction R1 as [|s i l s1 s2' o1 o2' E R1 IH]; intros R2; [exact R2|]. cbn [app]. rewrite <- app_assoc. apply (runs_cons _ _ _ s1); auto. Qed.
Lemma runs_quiet s l s1 r s2 o : runs s l s1 [] -> runs s1 r s2 o -> runs s (l ++ r) s2 o.
Proof. intros A B. exact (runs_app _ _ _ _ _ _ _ A B). Qed.
Lemma runs_steps s l s1 o : runs s l s1 o -> forall r, steps s (l ++ r) = let! x := steps s1 r in Ok (o ++ x).
Proof.
  intros R. induction R as [s|s i l s1 s2 o1 o2 E R IH]; intros r.
  - cbn [app]. destruct (steps s r); reflexivity.
  - cbn [app steps]. rewrite E. cbn [bindr]. rewrite IH. destruct (steps s2 r); cbn [bindr]; [rewrite app_assoc|]; reflexivity.
Qed.
Lemma runs_one s i s1 o : step s i = Ok (s1, o) -> runs s [i] s1 o.
Proof. intros E. rewrite <- (app_nil_r o). apply (runs_cons _ _ _ s1); [exact E|constructor]. Qed.
Lemma runs_then s i l s1 s2 o : step s i = Ok (s1, []) -> runs s1 l s2 o -> runs s (i :: l) s2 o.
Proof. intros E R. exact (runs_cons _ _ _ _ _ _ _ E R). Qed.

Lemma runs_eq s l s1 s2 o : runs s l s1 o -> s1 = s2 -> runs s l s2 o.
Proof. intros R <-. exact R. Qed.

(** ** Events *)
Lemma add_last p n t s es e : events s = es ++ [e] -> add_to_last p n t s = if p (kind_of e) && (length (kids_of e) <? n) then Some (set_events (es ++ [append e t]) s) else None.
Proof. intros E. unfold add_to_last. rewrite E, rev_app_distr. cbn [rev app]. rewrite rev_involutive. reflexivity. Qed.
Lemma arg_step t s es e : events s = es ++ [e] -> step s (CArg t) = Ok (match add_event_argument t s with Some s => s | None => add_articulation t s end, []).
Proof. intros E. cbn [step]. destruct (events s) as [|a l]; [destruct es; discriminate|reflexivity]. Qed.
Lemma run_event e s : event_ok e -> runs s (event_items e) (set_events (events s ++ [event_tree e []]) s) [].
Proof.
  intros OK. destruct e as [k h args]. unfold event_ok, event_items, event_tree in *. cbn [ev_kind ev_token ev_args] in *.
  assert (NE : forall es (x : tree), exists a b, es ++ [x] = a :: b) by (intros [|a es] x; repeat eexists).
  eapply runs_then; [reflexivity|]. destruct k; try contradiction.
  - (* tweak *) destruct args as [|a [|b [|c args]]]; try discriminate. cbn [map app].
    assert (ST : forall a s es kids, events s = es ++ [N KTweak [h] kids []] -> length kids < 2 -> step s (arg_item a) = Ok (set_events (es ++ [N KTweak [h] (kids ++ [arg_tree a]) []]) s, [])).
    { intros a0 s0 es kids E L. assert (LB : (length kids <? 2) = true) by (apply Nat.ltb_lt; exact L). destruct a0; cbn [arg_item arg_tree step].
      - unfold add_event_argument, add_spanner_id, add_tweak. rewrite !(add_last _ _ _ _ es _ E). cbn [kind_of kids_of andb orelse append extend]. rewrite LB. destruct (NE es (N KTweak [h] kids [])) as (u & v & UV). rewrite E, UV. reflexivity.
      - unfold add_spanner_id, add_tweak. rewrite !(add_last _ _ _ _ es _ E). cbn [kind_of kids_of andb orelse append extend]. rewrite LB. reflexivity.
      - unfold add_tweak. rewrite !(add_last _ _ _ _ es _ E). cbn [kind_of kids_of andb orelse append extend]. rewrite LB. reflexivity.
      - unfold add_tweak. rewrite !(add_last _ _ _ _ es _ E). cbn [kind_of kids_of andb orelse append extend]. rewrite LB. reflexivity. }
    eapply runs_then; [apply (ST a _ (events s) []); [reflexivity|cbn; lia]|]. eapply runs_then; [apply (ST b _ (events s) [arg_tree a]); [reflexivity|cbn; lia]|]. constructor.
  - (* tag *) destruct OK as (t & ->). cbn [map arg_item arg_tree app]. eapply runs_then; [|constructor]. rewrite (arg_step _ _ (events s) (N KTag [h] [] [])) by reflexivity. unfold add_event_argument, add_spanner_id, add_tweak, add_tag, add_shape. rewrite !(add_last _ _ _ _ (events s) (N KTag [h] [] [])) by reflexivity. reflexivity.
  - (* shape *) destruct OK as (t & u & ->). cbn [map arg_item arg_tree app]. eapply runs_then; [|eapply runs_then; [|constructor]].
    + rewrite (arg_step _ _ (events s) (N KShape [h] [] [])) by reflexivity. unfold add_event_argument, add_spanner_id, add_tweak, add_tag, add_shape. rewrite !(add_last _ _ _ _ (events s) (N KShape [h] [] [])) by reflexivity. reflexivity.
    + rewrite (arg_step _ _ (events s) (N KShape [h] [t] [])) by reflexivity. unfold add_event_argument, add_spanner_id, add_tweak, add_tag, add_shape. rewrite !(add_last _ _ _ _ (events s) (N KShape [h] [t] [])) by reflexivity. reflexivity.
  - (* vshape *) destruct OK as (t & u & ->). cbn [map arg_item arg_tree app]. eapply runs_then; [|eapply runs_then; [|constructor]].
    + rewrite (arg_step _ _ (events s) (N KVShape [h] [] [])) by reflexivity. unfold add_event_argument, add_spanner_id, add_tweak, add_tag, add_shape. rewrite !(add_last _ _ _ _ (events s) (N KVShape [h] [] [])) by reflexivity. reflexivity.
    + rewrite (arg_step _ _ (events s) (N KVShape [h] [t] [])) by reflexivity. unfold add_event_argument, add_spanner_id, add_tweak, add_tag, add_shape. rewrite !(add_last _ _ _ _ (events s) (N KVShape [h] [t] [])) by reflexivity. reflexivity.
  - (* spanner id *) destruct OK as (t & [->| ->]); cbn [map arg_item arg_tree app]; eapply runs_then; [|constructor| |constructor].
    + rewrite (arg_step _ _ (events s) (N KSpannerId [h] [] [])) by reflexivity. unfold add_event_argument, add_spanner_id, add_tweak, add_tag, add_shape. rewrite !(add_last _ _ _ _ (events s) (N KSpannerId [h] [] [])) by reflexivity. reflexivity.
    + cbn [step]. unfold add_spanner_id, add_tweak. rewrite !(add_last _ _ _ _ (events s) (N KSpannerId [h] [] [])) by reflexivity. reflexivity.
  - (* direction *) subst args. constructor.
Qed.
Lemma set_events_twice a b s : set_events a (set_events b s) = set_events a s.
Proof. reflexivity. Qed.
Lemma set_events_id s : set_events (events s) s = s.
Proof. destruct s. reflexivity. Qed.
Lemma run_events l s : Forall event_ok l -> runs s (flat_map event_items l) (set_events (events s ++ map (fun e => event_tree e []) l) s) [].
Proof.
  intros F. revert s. induction F as [|e l OK F IH]; intros s; cbn [flat_map map].
  - rewrite app_nil_r, set_events_id. constructor.
  - eapply runs_quiet; [apply run_event; exact OK|]. specialize (IH (set_events (events s ++ [event_tree e []]) s)). cbn [events set_events] in IH. rewrite <- app_assoc in IH. exact IH.
Qed.
(** a complete event takes no more arguments *)
Lemma event_full e : event_ok e -> match ev_kind e with KSpannerId | KTag => length (ev_args e) = 1 | KTweak | KShape | KVShape => length (ev_args e) = 2 | _ => True end.
Proof. unfold event_ok. destruct (ev_kind e); try contradiction; try (intros; exact I); intros H; try exact H; [destruct H as (t & ->)|destruct H as (t & u & ->)|destruct H as (t & u & ->)|destruct H as (t & [->| ->])]; reflexivity. Qed.
Lemma no_tweak l t s : Forall event_ok l -> events s = map (fun e => event_tree e []) l -> add_tweak t s = None.
Proof.
  intros F E. destruct l as [|x l]; [unfold add_tweak, add_to_last; rewrite E; reflexivity|]. destruct (@exists_last _ (x :: l)) as (a & e & EQ); [discriminate|]. rewrite EQ in F, E. rewrite map_app in E. cbn [map] in E. unfold add_tweak. rewrite (add_last _ _ _ _ _ _ E).
  apply Forall_app in F. destruct F as (_ & F). inversion F as [|? ? OK _]. apply event_full in OK. unfold event_tree. cbn [kind_of kids_of]. rewrite app_nil_r, map_length. destruct (ev_kind e); try reflexivity. rewrite OK. reflexivity.
Qed.
Lemma no_argument l t s : Forall event_ok l -> events s = map (fun e => event_tree e []) l -> add_event_argument t s = None.
Proof.
  intros F E. unfold add_event_argument. rewrite (no_tweak l t s F E). destruct l as [|x l]; [unfold add_spanner_id, add_tag, add_shape, add_to_last; rewrite E; reflexivity|].
  destruct (@exists_last _ (x :: l)) as (a & e & EQ); [discriminate|]. rewrite EQ in F, E. rewrite map_app in E. cbn [map] in E. unfold add_spanner_id, add_tag, add_shape. rewrite !(add_last _ _ _ _ _ _ E).
  apply Forall_app in F. destruct F as (_ & F). inversion F as [|? ? OK _]. apply event_full in OK. unfold event_tree. cbn [kind_of kids_of]. rewrite app_nil_r, map_length. destruct (ev_kind e); try reflexivity; rewrite OK; reflexivity.
Qed.
Lemma chain_tree l b : chain (map (fun e => event_tree e []) l) b = fold_right (fun e t => event_tree e [t]) b l.
Proof. induction l as [|e l IH]; [reflexivity|]. cbn [map chain fold_right]. rewrite IH. unfold event_tree. cbn [append extend]. rewrite <- app_assoc. reflexivity. Qed.
Definition arts_with (s : st) (t : tree) : tree := append (match arts s with Some a => a | None => N KArticulations [] [] [] end) t.
Lemma run_articulation a s : articulation_ok a -> events s = [] -> has (music s) || has_dur s = true ->
  runs s (articulation_items a) (set_arts (Some (arts_with s (articulation_tree a))) s) [].
Proof.
  intros (F & Q & B) E H. destruct a as [es b]. unfold articulation_items, articulation_tree. cbn [ar_events ar_body] in *. eapply runs_quiet; [apply run_events; exact F|]. rewrite E. cbn [app].
  set (s1 := set_events (map (fun e => event_tree e []) es) s). assert (E1 : events s1 = map (fun e => event_tree e []) es) by reflexivity.
  assert (A : add_articulation (body_tree b) s1 = set_arts (Some (arts_with s (fold_right (fun e t => event_tree e [t]) (body_tree b) es))) s).
  { unfold add_articulation. rewrite E1, chain_tree. change (music s1) with (music s). change (has_dur s1) with (has_dur s). rewrite H. unfold s1, arts_with. destruct s. cbn in E. subst. reflexivity. }
  assert (NE : es <> [] -> exists u v, events s1 = u :: v). { intros NE. destruct es as [|e es]; [contradiction|]. rewrite E1. cbn [map]. eauto. }
  apply runs_one. destruct b as [t|t|t|t]; cbn [body_item body_tree step] in *.
  - rewrite A. reflexivity.
  - rewrite (no_argument es t s1 F E1), A. destruct (NE B) as (u & v & ->). reflexivity.
  - cbn [fold_left]. destruct (NE B) as (u & v & ->). rewrite A. reflexivity.
  - rewrite A. destruct (NE B) as (u & v & ->). reflexivity.
Qed.
(** ** Comments *)
Lemma run_comments_modifier cs : forall s m, modifier s = Some m -> runs s (map CComment cs) (set_modifier (Some (extend m cs)) s) [].
Proof.
  induction cs as [|c cs IH]; intros s m E; cbn [map].
  - destruct s, m. cbn in *. rewrite app_nil_r. subst. constructor.
  - eapply runs_then; [cbn [step]; rewrite E; reflexivity|]. assert (X := IH (set_modifier (Some (append m c)) s) (append m c) eq_refl). destruct m. cbn [append extend] in *. rewrite <- app_assoc in X. exact X.
Qed.
Lemma run_comments_arts cs : forall s a, modifier s = None -> events s = [] -> arts s = Some a -> runs s (map CComment cs) (set_arts (Some (extend a cs)) s) [].
Proof.
  induction cs as [|c cs IH]; intros s a M E A; cbn [map].
  - destruct s, a. cbn in *. rewrite app_nil_r. subst. constructor.
  - eapply runs_then; [cbn [step]; rewrite M, E, A; reflexivity|]. assert (X := IH (set_arts (Some (append a c)) s) (append a c) M E eq_refl). destruct a. cbn [append extend] in *. rewrite <- app_assoc in X. exact X.
Qed.
Lemma run_comments_free cs : forall s, modifier s = None -> events s = [] -> arts s = None -> has (music s) || has_dur s = true ->
  runs s (map CComment cs) (set_comments (comments s ++ cs) s) [].
Proof.
  induction cs as [|c cs IH]; intros s M E A H; cbn [map].
  - destruct s. cbn. rewrite app_nil_r. constructor.
  - assert (H' : negb (has (music s)) && negb (has_dur s) = false) by (rewrite <- negb_orb, H; reflexivity).
    eapply runs_then; [cbn [step]; rewrite M, E, A; cbn [rev]; rewrite H'; reflexivity|]. assert (X := IH (set_comments (comments s ++ [c]) s) M E A H). cbn [comments set_comments] in X. rewrite <- app_assoc in X. exact X.
Qed.
(** ** Articulations and modifiers *)
Definition arts_trees (l : list (articulation * list tree)) : list tree := spread (map (fun x => (articulation_tree (fst x), snd x)) l).
Lemma run_arts l : forall s, Forall (fun x => articulation_ok (fst x) /\ Forall comment (snd x)) l -> events s = [] -> has (music s) || has_dur s = true ->
  modifier s = None \/ Forall (fun x => snd x = []) l -> l <> [] ->
  runs s (arts_items l) (set_arts (Some (extend (match arts s with Some a => a | None => N KArticulations [] [] [] end) (arts_trees l))) s) [].
Proof.
  induction l as [|(a, cs) l IH]; intros s F E H M NE; [contradiction|]. inversion F as [|? ? (AO & CO) F']. subst. cbn [fst snd] in *. unfold arts_items, arts_trees, spread. cbn [flat_map map fst snd]. fold (arts_items l).
  assert (STEP : runs s (articulation_items a ++ map CComment cs) (set_arts (Some (extend (match arts s with Some a => a | None => N KArticulations [] [] [] end) (articulation_tree a :: cs))) s) []).
  { eapply runs_quiet; [apply run_articulation; assumption|]. destruct M as [M|M].
    - eapply runs_eq; [apply (run_comments_arts cs _ (arts_with s (articulation_tree a))); [exact M|exact E|reflexivity]|]. unfold arts_with. destruct (match arts s with Some a0 => a0 | None => N KArticulations [] [] [] end). cbn [append extend]. rewrite <- app_assoc. reflexivity.
    - inversion M as [|? ? M1 M2]. subst. cbn [snd] in M1. subst cs. constructor. }
  eapply runs_quiet; [exact STEP|]. destruct l as [|y l]; [cbn [map flat_map]; rewrite app_nil_r; constructor|].
  assert (M' : modifier s = None \/ Forall (fun x : articulation * list tree => snd x = []) (y :: l)) by (destruct M as [M|M]; [left; exact M|right; inversion M; assumption]).
  set (s1 := set_arts (Some (extend match arts s with Some a => a | None => N KArticulations [] [] [] end (articulation_tree a :: cs))) s).
  assert (X := IH s1 F' E H M'). specialize (X ltac:(discriminate)). eapply runs_eq; [exact X|]. unfold s1. cbn [arts set_arts]. unfold arts_trees, spread. destruct (match arts s with Some a0 => a0 | None => N KArticulations [] [] [] end). cbn [extend]. rewrite <- app_assoc. reflexivity.
Qed.
Definition mod_trees (l : list (tree * list tree * list tree)) : list tree := spread (map (fun x => let '(t, ext, cs) := x in (with_more t ext, cs)) l).
Lemma extend_last_app l x e : extend_last (l ++ [x]) e = l ++ [extend x e].
Proof. induction l as [|y l IH]; [reflexivity|]. cbn [app extend_last]. destruct (l ++ [x]) eqn:E; [destruct l; discriminate|]. rewrite IH. reflexivity. Qed.
Lemma run_mods l : forall s, has (music s) = true -> arts s = None -> l <> [] ->
  runs s (mods_items (MChord l)) (set_modifier (Some (extend (match modifier s with Some a => a | None => N KChordModifiers [] [] [] end) (mod_trees l))) s) [].
Proof.
  cbn [mods_items]. induction l as [|((t, ext), cs) l IH]; intros s H A NE; [contradiction|]. unfold mod_trees, spread. cbn [flat_map map fst snd].
  set (m := match modifier s with Some a => a | None => N KChordModifiers [] [] [] end).
  assert (STEP : runs s (TChordMod t :: match ext with [] => [] | _ => [CModifier ext] end ++ map CComment cs) (set_modifier (Some (extend m (with_more t ext :: cs))) s) []).
  { eapply runs_then; [cbn [step]; rewrite H, A; reflexivity|]. fold m. eapply runs_quiet with (s1 := set_modifier (Some (append m (with_more t ext))) s).
    - destruct ext as [|e ext].
      + destruct t as [k h kids tl]. cbn [with_more]. rewrite app_nil_r. constructor.
      + apply runs_one. cbn [step modifier set_modifier]. destruct m as [mk mh mkids mtl]. cbn [append extend]. rewrite extend_last_app. destruct (mkids ++ [t]) eqn:E; [destruct mkids; discriminate|]. destruct t. reflexivity.
    - eapply runs_eq; [apply (run_comments_modifier cs _ (append m (with_more t ext))); reflexivity|]. destruct m. cbn [append extend]. rewrite <- app_assoc. reflexivity. }
  eapply runs_quiet; [exact STEP|]. destruct l as [|y l]; [cbn [map flat_map]; rewrite app_nil_r; constructor|].
  assert (X := IH (set_modifier (Some (extend m (with_more t ext :: cs))) s) H A ltac:(discriminate)). eapply runs_eq; [exact X|]. cbn [modifier set_modifier]. unfold mod_trees, spread. destruct m. cbn [extend]. rewrite <- app_assoc. reflexivity.
Qed.
(** ** A piece of music *)
Definition matches (s : st) (b : before) : Prop :=
  match b with
  | Clear => s = reset
  | Unfinished c e => has_dur s || has (arts s) = c /\ exists l, Forall event_ok l /\ events s = map (fun e => event_tree e []) l /\ (e = false -> l = [])
  end.
Definition start_music (x : start) : option tree :=
  match x with SNone => None | SPitch k h oct cs => Some (N k [h] (oct ++ cs) []) | SToken k h => Some (N k h [] []) | SNode t => Some t end.
Definition head_state (g : music_piece) (cs : list tree) : st :=
  mk_st (start_music (g_start g)) (match g_dur g with Some (h, dots, _) => Some (h :: dots) | None => None end)
    (match g_dur g with Some (_, _, sc) => sc | None => None end) None None [] cs.
Lemma head_has g cs : music_ok g -> has (music (head_state g cs)) || has_dur (head_state g cs) = true.
Proof. intros (_ & S0 & _). unfold head_state, has_dur. cbn [music dur]. destruct (g_start g); try reflexivity. destruct S0 as (D & _). destruct (g_dur g) as [((h, dots), sc)|]; [reflexivity|contradiction]. Qed.
Lemma matches_tweak s b t : matches s b -> add_tweak t s = None.
Proof. destruct b as [|c e]; [intros ->; reflexivity|]. intros (_ & l & F & E & _). exact (no_tweak l t s F E). Qed.
Lemma run_start s b x : matches s b -> x <> SNone -> runs s (start_items x) (set_music (start_music x) reset) (pending s).
Proof.
  intros M NE. destruct x as [|k h oct cs|k h|t]; [contradiction| | |]; cbn [start_items start_music].
  - rewrite <- (app_nil_r (pending s)). eapply runs_cons; [cbn [step]; rewrite (matches_tweak s b _ M); reflexivity|]. destruct (oct ++ cs) as [|y l]; [constructor|]. apply runs_one. reflexivity.
  - apply runs_one. reflexivity.
  - apply runs_one. reflexivity.
Qed.
Lemma run_dur m cs d : runs (mk_st m None None None None [] cs) (dur_items (Some d)) (mk_st m (Some (fst (fst d) :: snd (fst d))) (snd d) None None [] cs) [].
Proof.
  destruct d as ((h, dots), sc). cbn [dur_items fst snd].
  assert (S1 : step (mk_st m None None None None [] cs) (TDur h) = Ok (mk_st m (Some [h]) None None None [] cs, [])) by reflexivity.
  assert (S2 : step (mk_st m (Some [h]) None None None [] cs) (CDuration dots sc) = Ok (mk_st m (Some (h :: dots)) sc None None [] cs, [])) by reflexivity.
  destruct dots as [|y dots]; [destruct sc as [t|]|]; (eapply runs_then; [exact S1|]); try (apply runs_one; exact S2). constructor.
Qed.
Lemma run_head s b g : matches s b -> may_follow b (PMusic g) -> music_ok g ->
  runs s (start_items (g_start g) ++ map CComment (g_before g) ++ dur_items (g_dur g) ++ map CComment (g_after g)) (head_state g (g_before g ++ g_after g)) (pending s).
Proof.
  intros M MF OK. pose proof OK as (_ & S0 & ND & _).
  assert (R : runs s (start_items (g_start g) ++ map CComment (g_before g) ++ dur_items (g_dur g)) (head_state g (g_before g)) (pending s)).
  { destruct (g_start g) as [|k h oct cs|k h|t] eqn:ES.
    - (* isolated duration *) destruct S0 as (D & _ & B). rewrite B. cbn [start_items map app]. cbn [may_follow] in MF. rewrite ES in MF. unfold head_state. rewrite ES. destruct (g_dur g) as [((h, dots), sc)|]; [|contradiction]. cbn [start_music].
      assert (S1 : runs s [TDur h] (mk_st None (Some [h]) None None None [] []) (pending s)).
      { apply runs_one. cbn [step]. destruct MF as [->|(c & ->)].
        - cbn in M. subst s. reflexivity.
        - destruct M as (-> & _). reflexivity. }
      destruct dots as [|y dots]; [destruct sc as [t|]|]; cbn [dur_items]; try exact S1; rewrite <- (app_nil_r (pending s)); (eapply runs_app with (l := [TDur h]); [exact S1|apply runs_one; reflexivity]).
    - rewrite <- (app_nil_r (pending s)). eapply runs_app; [apply (run_start s b _ M); discriminate|]. eapply runs_quiet; [apply run_comments_free; reflexivity|]. cbn [comments set_music reset app]. unfold head_state. rewrite ES. destruct (g_dur g) as [((h', dots), sc)|]; [apply (run_dur _ _ (h', dots, sc))|constructor].
    - rewrite <- (app_nil_r (pending s)). eapply runs_app; [apply (run_start s b _ M); discriminate|]. eapply runs_quiet; [apply run_comments_free; reflexivity|]. cbn [comments set_music reset app]. unfold head_state. rewrite ES. destruct (g_dur g) as [((h', dots), sc)|]; [apply (run_dur _ _ (h', dots, sc))|constructor].
    - rewrite <- (app_nil_r (pending s)). eapply runs_app; [apply (run_start s b _ M); discriminate|]. eapply runs_quiet; [apply run_comments_free; reflexivity|]. cbn [comments set_music reset app]. unfold head_state. rewrite ES. destruct (g_dur g) as [((h', dots), sc)|]; [apply (run_dur _ _ (h', dots, sc))|constructor]. }
  rewrite <- (app_nil_r (pending s)), !app_assoc. rewrite <- (app_assoc (start_items (g_start g))). eapply runs_app; [exact R|]. apply run_comments_free; try reflexivity. apply head_has. exact OK.
Qed.
Definition mods_tree (m : mods) : option tree :=
  match m with MNone => None | MRest h cs => Some (N KRestModifier [h] cs []) | MChord l => Some (N KChordModifiers [] (mod_trees l) []) end.
Definition note_of (g : music_piece) : option tree :=
  match g_start g, g_mods g with SPitch _ h oct cs, MRest _ _ => Some (N KPitchedRest [h] (oct ++ cs) []) | x, _ => start_music x end.
Definition arts_tree (l : list (articulation * list tree)) : option tree := match l with [] => None | _ => Some (N KArticulations [] (arts_trees l) []) end.
Definition full_state (g : music_piece) : st :=
  let h := head_state g (g_before g ++ g_after g) in
  mk_st (note_of g) (dur h) (scaling h) (mods_tree (g_mods g)) (arts_tree (g_arts g)) (map (fun e => event_tree e []) (g_next g)) (g_before g ++ g_after g).
Lemma run_music s b g : matches s b -> may_follow b (PMusic g) -> music_ok g -> runs s (music_items g) (full_state g) (pending s).
Proof.
  intros M MF OK.
  assert (EQ : music_items g = (start_items (g_start g) ++ map CComment (g_before g) ++ dur_items (g_dur g) ++ map CComment (g_after g)) ++ mods_items (g_mods g) ++ arts_items (g_arts g) ++ flat_map event_items (g_next g)) by (unfold music_items; rewrite <- !app_assoc; reflexivity).
  rewrite EQ, <- (app_nil_r (pending s)). pose proof (run_head s b g M MF OK) as R.
  set (h := head_state g (g_before g ++ g_after g)) in *. pose proof (head_has g (g_before g ++ g_after g) OK) as HH. fold h in HH.
  pose proof OK as (_ & S0 & ND & MO & AO & MA & NX).
  set (s1 := mk_st (note_of g) (dur h) (scaling h) (mods_tree (g_mods g)) None [] (g_before g ++ g_after g)).
  assert (R1 : runs h (mods_items (g_mods g)) s1 []).
  { unfold s1, h, note_of, head_state. destruct (g_mods g) as [|r cs|l]; cbn [mods_tree].
    - destruct (g_start g); constructor.
    - destruct MO as ((h0 & oct & cs' & ES) & _). rewrite ES. cbn [start_music mods_items]. eapply runs_then; [reflexivity|]. eapply runs_eq; [eapply run_comments_modifier; reflexivity|]. reflexivity.
    - destruct MO as (NE & F). assert (HM : has (start_music (g_start g)) = true). { destruct (g_start g); try reflexivity. destruct S0 as (_ & E & _). discriminate. }
      eapply runs_eq; [apply run_mods; [exact HM|reflexivity|exact NE]|]. cbn [modifier extend app]. unfold set_modifier. cbn. destruct (g_start g); reflexivity. }
  assert (HN : has (music s1) || has_dur s1 = true).
  { assert (X : has (note_of g) = has (start_music (g_start g))) by (unfold note_of; destruct (g_start g), (g_mods g); reflexivity). unfold s1, has_dur in *. cbn [music dur] in *. rewrite X. exact HH. }
  set (s2 := set_arts (arts_tree (g_arts g)) s1).
  assert (R2 : runs s1 (arts_items (g_arts g)) s2 []).
  { unfold s2. destruct (g_arts g) as [|y l] eqn:EA; [constructor|]. rewrite <- EA in *. eapply runs_eq; [apply run_arts; [exact AO|reflexivity|exact HN| |rewrite EA; discriminate]|].
    - destruct (g_mods g); [left; reflexivity|right; apply MA; discriminate|right; apply MA; discriminate].
    - cbn [arts s1 extend app]. rewrite EA. reflexivity. }
  assert (R3 : runs s2 (flat_map event_items (g_next g)) (full_state g) []).
  { eapply runs_eq; [apply run_events; eapply Forall_impl; [|exact NX]; intros e (E & _); exact E|]. reflexivity. }
  exact (runs_app _ _ _ _ _ _ _ R (runs_quiet _ _ _ _ _ _ R1 (runs_quiet _ _ _ _ _ _ R2 R3))).
Qed.
Lemma filter_all l : Forall (fun e => event_ok e /\ for_next_note e) l -> filter next_event (map (fun e => event_tree e []) l) = map (fun e => event_tree e []) l.
Proof.
  intros F. induction F as [|e l (_ & N) F IH]; [reflexivity|]. cbn [map filter]. rewrite IH. unfold next_event, event_tree at 1. cbn [kind_of].
  destruct N as [N|[N|[N|N]]]; rewrite N; reflexivity.
Qed.
Lemma articulation_quiet a : articulation_ok a -> quiet (articulation_tree a).
Proof.
  intros (F & Q & _). unfold articulation_tree. induction F as [|e l E F IH]; [exact Q|]. cbn [fold_right]. unfold event_tree. apply quiet_last; [|exact IH]. unfold event_ok in E. destruct (ev_kind e); try contradiction; discriminate.
Qed.
Lemma attach_none mc : attach None mc = mc.
Proof. reflexivity. Qed.
Lemma attach_calm k h l cs tl t cs0 : calm l -> Forall comment cs -> attach (Some (N k h (l ++ cs) tl)) (t, cs0) = (with_more t (cs0 ++ [N k h l tl]), cs).
Proof. intros C F. unfold attach. rewrite (pop_calm k h l cs tl C F). destruct t. cbn [fst snd append extend with_more]. rewrite <- app_assoc. reflexivity. Qed.
Lemma with_more_nil t : with_more t [] = t.
Proof. destruct t. cbn. rewrite app_nil_r. reflexivity. Qed.
Lemma with_more_app t a b : with_more (with_more t a) b = with_more t (a ++ b).
Proof. destruct t. cbn. rewrite app_assoc. reflexivity. Qed.
Lemma attach_arts g t cs : music_ok g -> attach (arts_tree (g_arts g)) (t, cs) =
  let (ars, cs) := match g_arts g with [] => ([], cs) | l => let b := between (map (fun x => (articulation_tree (fst x), snd x)) l) in (cs ++ [N KArticulations [] (fst b) []], snd b) end in (with_more t ars, cs).
Proof.
  intros (_ & _ & _ & _ & AO & _). unfold arts_tree. destruct (g_arts g) as [|y l] eqn:EA; [rewrite with_more_nil; reflexivity|]. rewrite <- EA in *.
  destruct (between_spec (map (fun x => (articulation_tree (fst x), snd x)) (g_arts g))) as (A & B & C); [rewrite EA; discriminate| |].
  - apply Forall_map. eapply Forall_impl; [|exact AO]. intros x (X & Y). split; [apply articulation_quiet; exact X|exact Y].
  - unfold arts_trees. rewrite A. rewrite attach_calm by assumption. reflexivity.
Qed.
Lemma attach_mods g t cs : music_ok g -> attach (mods_tree (g_mods g)) (t, cs) =
  let (ms, cs) := match g_mods g with
                  | MNone => ([], cs)
                  | MRest h cs' => (cs ++ [N KRestModifier [h] [] []], cs')
                  | MChord l => let b := between (map (fun x => let '(t, ext, cs) := x in (with_more t ext, cs)) l) in (cs ++ [N KChordModifiers [] (fst b) []], snd b)
                  end in (with_more t ms, cs).
Proof.
  intros (_ & _ & _ & MO & _). destruct (g_mods g) as [|h cs'|l]; cbn [mods_tree].
  - rewrite with_more_nil. reflexivity.
  - destruct MO as (_ & F). apply (attach_calm KRestModifier [h] [] cs' []); [left; reflexivity|exact F].
  - destruct MO as (NE & F). destruct (between_spec (map (fun x => let '(t, ext, cs) := x in (with_more t ext, cs)) l)) as (A & B & C).
    + destruct l; [contradiction|discriminate].
    + apply Forall_map. eapply Forall_impl; [|exact F]. intros ((u, v), w) X. exact X.
    + unfold mod_trees. rewrite A. rewrite attach_calm by assumption. reflexivity.
Qed.
Lemma pending_music_trees g : music_ok g -> pending (full_state g) = music_trees g.
Proof.
  intros OK. pose proof OK as (_ & S0 & ND & MO & _ & _ & NX). unfold pending, full_state. cbn [music dur scaling modifier arts events comments head_state has_dur]. rewrite (filter_all _ NX).
  unfold music_trees.
  set (cs := (match g_dur g, g_start g with None, SPitch _ _ _ cs => cs | _, _ => [] end) ++ g_before g ++ g_after g).
  set (d := match g_dur g with Some (h, dots, sc) => [N KDuration (h :: dots) (match sc with Some t => [t] | None => [] end) []] | None => [] end).
  set (note := match g_start g, g_mods g with
              | SNone, _ => N KUnpitched [] [] []
              | SPitch _ h oct cs, MRest _ _ => N KPitchedRest [h] (if g_dur g then oct ++ cs else oct) []
              | SPitch k h oct cs, _ => N k [h] (if g_dur g then oct ++ cs else oct) []
              | SToken k h, _ => N k h [] []
              | SNode t, _ => t
              end).
  match goal with |- (match ?x with _ => _ end) ++ _ = _ => assert (E : x = Some (with_more note d, cs)) end.
  { unfold has_dur. cbn [dur]. destruct (g_dur g) as [((h, dots), sc)|] eqn:ED.
    - unfold note, note_of, cs, d. cbn [app]. destruct (g_start g), (g_mods g); reflexivity.
    - destruct (ND eq_refl) as (B1 & B2). unfold cs, d. rewrite B1, B2. cbn [app]. rewrite app_nil_r, with_more_nil. unfold note, note_of.
      destruct (g_start g) as [|k h oct cs'|k h|t]; cbn [start_music].
      + destruct S0 as (D & _). contradiction.
      + destruct S0 as (_ & C & Q). pose proof (calm_forall oct Q) as CA. destruct (g_mods g); cbn [start_music]; rewrite (pop_calm _ _ _ _ _ CA C); reflexivity.
      + destruct (g_mods g); reflexivity.
      + destruct (g_mods g); rewrite (pop_quiet t S0); reflexivity. }
  rewrite E. rewrite (attach_mods g _ _ OK). clearbody note d cs. match goal with |- context [attach _ (let (ms, cs) := ?x in _)] => destruct x as (ms, cs1) end. rewrite (attach_arts g _ _ OK).
  match goal with |- context [let (ars, cs) := ?x in (_, _)] => destruct x as (ars, cs2) end. rewrite !with_more_app. reflexivity.
Qed.
Lemma matches_after g : music_ok g -> matches (full_state g) (after_piece (PMusic g)).
Proof.
  intros (_ & _ & _ & _ & _ & _ & NX). cbn [after_piece matches]. split.
  - unfold has_dur, full_state. cbn [dur head_state arts]. destruct (g_dur g) as [((h, dots), sc)|]; [reflexivity|]. destruct (g_arts g); reflexivity.
  - exists (g_next g). split; [eapply Forall_impl; [|exact NX]; intros e (E & _); exact E|]. split; [reflexivity|]. destruct (g_next g); [reflexivity|discriminate].
Qed.

(** ** C87: reading music *)
Lemma matches_events s b : matches s b -> b = Clear \/ (exists c, b = Unfinished c false) -> events s = [].
Proof. intros M [->|(c & ->)]; [cbn in M; subst s; reflexivity|]. destruct M as (_ & l & _ & E & N). rewrite E, (N eq_refl). reflexivity. Qed.
Lemma run_piece s b p : matches s b -> may_follow b p -> piece_ok p ->
  exists s' o, runs s (piece_items p) s' o /\ matches s' (after_piece p) /\ pending s ++ piece_trees p = o ++ pending s'.
Proof.
  intros M MF OK. destruct p as [g|l|l|t|t|t|t|t|l|t]; cbn [piece_items piece_trees after_piece may_follow piece_ok] in *.
  - exists (full_state g), (pending s). split; [apply (run_music s b g M MF OK)|]. split; [apply matches_after; exact OK|]. rewrite (pending_music_trees g OK). reflexivity.
  - destruct MF as (-> & NE). cbn in M. subst s. exists (set_events (map (fun e => event_tree e []) l) reset), []. assert (F : Forall event_ok l) by (eapply Forall_impl; [|exact OK]; intros e (E & _); exact E). split; [apply (run_events l reset F)|]. split.
    + split; [reflexivity|]. exists l. split; [exact F|]. split; [reflexivity|discriminate].
    + unfold pending. cbn. rewrite (filter_all l OK). reflexivity.
  - exists reset, (pending s ++ l). split; [apply runs_one; reflexivity|]. split; [reflexivity|]. symmetry. apply app_nil_r.
  - exists reset, (pending s ++ [t]). split; [apply runs_one; cbn [step]; rewrite (matches_tweak s b t M); reflexivity|]. split; [reflexivity|]. symmetry. apply app_nil_r.
  - exists reset, (pending s ++ [t]). split; [apply runs_one; cbn [step]; rewrite (matches_events s b M MF); reflexivity|]. split; [reflexivity|]. symmetry. apply app_nil_r.
  - exists reset, (pending s ++ [t]). split; [apply runs_one; cbn [step]; rewrite (matches_events s b M MF); reflexivity|]. split; [reflexivity|]. symmetry. apply app_nil_r.
  - exists reset, (pending s ++ [t]). split; [apply runs_one; cbn [step fold_left]; rewrite (matches_events s b M MF); reflexivity|]. split; [reflexivity|]. symmetry. apply app_nil_r.
  - exists reset, (pending s ++ [t]). split; [apply runs_one; cbn [step]; rewrite (matches_events s b M MF); reflexivity|]. split; [reflexivity|]. symmetry. apply app_nil_r.
  - subst b. cbn in M. subst s. exists reset, l. split; [apply runs_one; reflexivity|]. split; [reflexivity|]. cbn. rewrite app_nil_r. reflexivity.
  - subst b. cbn in M. subst s. exists reset, [t]. split; [apply runs_one; reflexivity|]. split; reflexivity.
Qed.
(** Missing for the full claim: streams outside the grammar of Music_Spec, such as a comment after a command (C87_comment_finding). *)
Theorem C87_reads_partial : forall l, stream Clear l -> build (flat_map piece_items l) = Ok (flat_map piece_trees l).
Proof.
  assert (G : forall b l, stream b l -> forall s, matches s b -> steps s (flat_map piece_items l) = Ok (pending s ++ flat_map piece_trees l)).
  { intros b l ST. induction ST as [b|b p l MF OK ST IH]; intros s M; cbn [flat_map].
    - cbn [steps]. rewrite app_nil_r. reflexivity.
    - destruct (run_piece s b p M MF OK) as (s' & o & R & M' & E). rewrite (runs_steps _ _ _ _ R), (IH s' M'). cbn [bindr]. rewrite !app_assoc, E. reflexivity. }
  intros l ST. exact (G Clear l ST reset eq_refl).
Qed.
Print Assumptions C87_reads_partial.
(** *** Every token of the text is in the result, in the same order *)
Definition itoks (l : list item) : list nat := flat_map item_toks l.
Lemma itoks_app a b : itoks (a ++ b) = itoks a ++ itoks b.
Proof. apply flat_map_app. Qed.
Lemma itoks_cons i l : itoks (i :: l) = item_toks i ++ itoks l.
Proof. reflexivity. Qed.
Definition ttoks (l : list tree) : list nat := flat_map toks l.
Lemma ttoks_app a b : ttoks (a ++ b) = ttoks a ++ ttoks b.
Proof. apply flat_map_app. Qed.
Lemma ttoks_cons a b : ttoks (a :: b) = toks a ++ ttoks b.
Proof. reflexivity. Qed.
Lemma itoks_comments cs : itoks (map CComment cs) = ttoks cs.
Proof. induction cs as [|c cs IH]; [reflexivity|]. cbn [map]. rewrite itoks_cons, IH. reflexivity. Qed.
Lemma itoks_args l : itoks (map arg_item l) = ttoks (map arg_tree l).
Proof. induction l as [|a l IH]; [reflexivity|]. cbn [map]. rewrite itoks_cons, IH, ttoks_cons. destruct a; reflexivity. Qed.
Lemma toks_event e more : toks (event_tree e more) = itoks (event_items e) ++ ttoks more.
Proof. unfold event_tree, event_items. cbn [toks]. fold (ttoks (map arg_tree (ev_args e) ++ more)). rewrite app_nil_r, ttoks_app, itoks_cons, itoks_args. cbn [item_toks app]. reflexivity. Qed.
Lemma ttoks_events l : ttoks (map (fun e => event_tree e []) l) = itoks (flat_map event_items l).
Proof. induction l as [|e l IH]; [reflexivity|]. cbn [map flat_map]. rewrite ttoks_cons, IH, toks_event, itoks_app. cbn [ttoks flat_map]. rewrite app_nil_r. reflexivity. Qed.
Lemma toks_articulation a : toks (articulation_tree a) = itoks (articulation_items a).
Proof.
  destruct a as [es b]. unfold articulation_tree, articulation_items. cbn [ar_events ar_body]. rewrite itoks_app. induction es as [|e es IH].
  - cbn [fold_right flat_map]. destruct b; cbn [body_tree body_item itoks flat_map item_toks app]; rewrite ?app_nil_r; reflexivity.
  - cbn [fold_right flat_map]. rewrite toks_event, itoks_app, <- app_assoc, <- IH. cbn [ttoks flat_map]. rewrite app_nil_r. reflexivity.
Qed.
Lemma ttoks_between l : ttoks (fst (between l)) ++ ttoks (snd (between l)) = ttoks (spread l).
Proof.
  induction l as [|(t, cs) l IH]; [reflexivity|]. destruct l as [|y l].
  - change (ttoks (t :: []) ++ ttoks cs = ttoks ((t :: cs) ++ [])). rewrite app_nil_r, !ttoks_cons. cbn [ttoks flat_map]. rewrite app_nil_r. reflexivity.
  - change (between ((t, cs) :: y :: l)) with (t :: cs ++ fst (between (y :: l)), snd (between (y :: l))). change (spread ((t, cs) :: y :: l)) with ((t :: cs) ++ spread (y :: l)). cbn [fst snd]. rewrite ttoks_app, <- IH, !ttoks_cons, ttoks_app, <- !app_assoc. reflexivity.
Qed.
Lemma toks_more t l : tail_of t = [] -> toks (with_more t l) = toks t ++ ttoks l.
Proof. destruct t as [k h kids tl]. cbn. intros ->. rewrite flat_map_app, !app_nil_r, app_assoc. reflexivity. Qed.
Lemma ttoks_mods l : Forall (fun x => tail_of (fst (fst x)) = []) l -> ttoks (mod_trees l) = itoks (mods_items (MChord l)).
Proof.
  intros F. induction F as [|((t, ext), cs) l H F IH]; [reflexivity|]. cbn [fst] in H. unfold mod_trees, spread in *. cbn [mods_items map flat_map fst snd] in *. rewrite ttoks_app, IH, itoks_app, itoks_cons, itoks_app, itoks_comments, ttoks_cons, (toks_more _ _ H). cbn [item_toks].
  assert (E : itoks match ext with [] => [] | _ => [CModifier ext] end = ttoks ext) by (destruct ext; cbn [itoks flat_map item_toks]; rewrite ?app_nil_r; reflexivity). rewrite E, <- !app_assoc. reflexivity.
Qed.
Lemma ttoks_arts l : ttoks (arts_trees l) = itoks (arts_items l).
Proof.
  induction l as [|(a, cs) l IH]; [reflexivity|]. unfold arts_trees, spread, arts_items in *. cbn [map flat_map fst snd] in *. rewrite ttoks_app, IH, ttoks_cons, !itoks_app, itoks_comments, toks_articulation. reflexivity.
Qed.
Definition dur_toks (g : music_piece) : list nat := itoks (dur_items (g_dur g)).
Definition rest_toks (g : music_piece) : list nat := itoks (mods_items (g_mods g)) ++ itoks (arts_items (g_arts g)) ++ itoks (flat_map event_items (g_next g)).
Lemma itoks_music g : itoks (music_items g) = itoks (start_items (g_start g)) ++ ttoks (g_before g) ++ dur_toks g ++ ttoks (g_after g) ++ rest_toks g.
Proof. unfold music_items, dur_toks, rest_toks. rewrite !itoks_app, !itoks_comments. reflexivity. Qed.
Lemma ttoks_music g : music_ok g -> no_tail (PMusic g) -> ttoks (music_trees g) = itoks (start_items (g_start g)) ++ dur_toks g ++ ttoks (g_before g) ++ ttoks (g_after g) ++ rest_toks g.
Proof.
  intros OK (T1 & T2). pose proof OK as (_ & S0 & ND & MO & AO & _). unfold music_trees.
  set (cs := (match g_dur g, g_start g with None, SPitch _ _ _ cs => cs | _, _ => [] end) ++ g_before g ++ g_after g).
  set (d := match g_dur g with Some (h, dots, sc) => [N KDuration (h :: dots) (match sc with Some t => [t] | None => [] end) []] | None => [] end).
  match goal with |- context [with_more ?x _] => set (note := x) end.
  assert (D : ttoks d = dur_toks g). { unfold d, dur_toks. destruct (g_dur g) as [((h, dots), sc)|]; [|reflexivity]. destruct dots as [|y dots], sc; cbn; rewrite ?app_nil_r; reflexivity. }
  assert (NT : tail_of note = []) by (unfold note; destruct (g_start g), (g_mods g); try reflexivity; exact T1).
  assert (S1 : toks note ++ ttoks d ++ ttoks cs = itoks (start_items (g_start g)) ++ dur_toks g ++ ttoks (g_before g) ++ ttoks (g_after g)).
  { rewrite D. unfold cs. rewrite !ttoks_app. unfold note, dur_toks. destruct (g_start g) as [|k h oct cs0|k h|t].
    - destruct (g_dur g); reflexivity.
    - assert (IS : itoks (start_items (SPitch k h oct cs0)) = h :: ttoks (oct ++ cs0)). { cbn [start_items]. rewrite itoks_cons. cbn [item_toks app]. destruct (oct ++ cs0); cbn [itoks flat_map item_toks]; rewrite ?app_nil_r; reflexivity. }
      rewrite IS. destruct (g_dur g) as [x|].
      + destruct (g_mods g); cbn [toks app ttoks flat_map]; rewrite ?app_nil_r; reflexivity.
      + destruct (ND eq_refl) as (-> & ->). rewrite ttoks_app. destruct (g_mods g); cbn [toks app ttoks flat_map dur_items itoks]; rewrite ?app_nil_r; reflexivity.
    - destruct (g_dur g), (g_mods g); cbn [toks flat_map start_items itoks item_toks ttoks app]; rewrite ?app_nil_r; reflexivity.
    - destruct (g_dur g), (g_mods g); cbn [start_items itoks flat_map item_toks app ttoks]; rewrite ?app_nil_r; reflexivity. }
  assert (S2 : forall (ms cs1 : list tree), (match g_mods g with
                  | MNone => ([], cs)
                  | MRest h cs' => (cs ++ [N KRestModifier [h] [] []], cs')
                  | MChord l => let b := between (map (fun x => let '(t, ext, cs) := x in (with_more t ext, cs)) l) in (cs ++ [N KChordModifiers [] (fst b) []], snd b)
                  end) = (ms, cs1) -> ttoks ms ++ ttoks cs1 = ttoks cs ++ itoks (mods_items (g_mods g))).
  { intros ms cs1 E. destruct (g_mods g) as [|h cs'|l].
    - injection E as <- <-. symmetry. apply app_nil_r.
    - injection E as <- <-. cbn [mods_items]. rewrite ttoks_app, itoks_cons, itoks_comments, <- app_assoc. reflexivity.
    - injection E as <- <-. rewrite <- (ttoks_mods l T2), ttoks_app, ttoks_cons. unfold mod_trees. rewrite <- ttoks_between. cbn [toks]. rewrite <- !app_assoc. cbn [app ttoks flat_map]. reflexivity. }
  match goal with |- context [let (_, _) := ?x in _] => destruct x as (ms, cs1) end. specialize (S2 ms cs1 eq_refl).
  assert (S3 : forall (ars cs2 : list tree), (match g_arts g with [] => ([], cs1) | l => let b := between (map (fun x => (articulation_tree (fst x), snd x)) l) in (cs1 ++ [N KArticulations [] (fst b) []], snd b) end) = (ars, cs2) ->
    ttoks ars ++ ttoks cs2 = ttoks cs1 ++ itoks (arts_items (g_arts g))).
  { intros ars cs2 E. rewrite <- ttoks_arts. destruct (g_arts g) as [|y l] eqn:EA; [injection E as <- <-; symmetry; apply app_nil_r|]. rewrite <- EA in *. injection E as <- <-. rewrite ttoks_app, ttoks_cons. unfold arts_trees. rewrite <- ttoks_between. cbn [toks]. rewrite <- !app_assoc. cbn [app ttoks flat_map]. reflexivity. }
  match goal with |- context [let (_, _) := ?x in _] => destruct x as (ars, cs2) end. specialize (S3 ars cs2 eq_refl).
  rewrite ttoks_cons, (toks_more _ _ NT), !ttoks_app, ttoks_events. unfold rest_toks.
  transitivity ((toks note ++ ttoks d ++ ttoks cs) ++ itoks (mods_items (g_mods g)) ++ itoks (arts_items (g_arts g)) ++ itoks (flat_map event_items (g_next g))).
  - rewrite <- !app_assoc. do 2 f_equal. rewrite (app_assoc (ttoks ars)), S3, <- app_assoc, (app_assoc (ttoks ms)), S2, <- app_assoc. reflexivity.
  - rewrite S1, <- !app_assoc. reflexivity.
Qed.
(** Missing for the full claim: streams outside the grammar of Music_Spec, and pieces of which the parts are moved (C87_moved_finding). *)
Theorem C87_order_partial : forall l, stream Clear l -> Forall no_tail l -> Forall in_place l ->
  exists out, build (flat_map piece_items l) = Ok out /\ flat_map toks out = flat_map item_toks (flat_map piece_items l).
Proof.
  intros l ST NT IP. exists (flat_map piece_trees l). split; [apply C87_reads_partial; exact ST|]. generalize ST NT IP. generalize Clear. clear ST NT IP. intros b ST. induction ST as [b|b p l MF OK ST IH]; intros NT IP; [reflexivity|]. cbn [flat_map]. inversion NT as [|? ? NT1 NT2]. inversion IP as [|? ? IP1 IP2]. subst. rewrite flat_map_app. fold (ttoks (piece_trees p)). fold (itoks (piece_items p ++ flat_map piece_items l)). rewrite itoks_app. unfold itoks at 2. rewrite (IH NT2 IP2). f_equal.
  destruct p; cbn [piece_trees piece_items]; cbn [piece_ok] in OK.
  - rewrite (ttoks_music g OK NT1), itoks_music. cbn in IP1. rewrite IP1. reflexivity.
  - apply ttoks_events.
  - cbn. rewrite app_nil_r. reflexivity.
  - reflexivity.
  - reflexivity.
  - reflexivity.
  - cbn. rewrite !app_nil_r. reflexivity.
  - reflexivity.
  - cbn. rewrite app_nil_r. reflexivity.
  - reflexivity.
Qed.
Print Assumptions C87_order_partial.
(** With comments before a duration every token is still there.
    Missing for the full claim: streams outside the grammar of Music_Spec. *)
Theorem C87_complete_partial : forall l, stream Clear l -> Forall no_tail l ->
  exists out, build (flat_map piece_items l) = Ok out /\ Permutation (flat_map toks out) (flat_map item_toks (flat_map piece_items l)).
Proof.
  intros l ST NT. exists (flat_map piece_trees l). split; [apply C87_reads_partial; exact ST|]. generalize ST NT. generalize Clear. clear ST NT. intros b ST. induction ST as [b|b p l MF OK ST IH]; intros NT; [constructor|]. cbn [flat_map]. inversion NT as [|? ? NT1 NT2]. subst. rewrite flat_map_app. fold (ttoks (piece_trees p)). fold (itoks (piece_items p ++ flat_map piece_items l)). rewrite itoks_app. unfold itoks at 2. apply Permutation_app; [|exact (IH NT2)].
  destruct p; cbn [piece_trees piece_items]; cbn [piece_ok] in OK.
  - rewrite (ttoks_music g OK NT1), itoks_music. apply Permutation_app_head. rewrite !app_assoc. do 2 apply Permutation_app_tail. apply Permutation_app_comm.
  - rewrite ttoks_events. reflexivity.
  - cbn. rewrite app_nil_r. reflexivity.
  - reflexivity.
  - reflexivity.
  - reflexivity.
  - cbn. rewrite !app_nil_r. reflexivity.
  - reflexivity.
  - cbn. rewrite app_nil_r. reflexivity.
  - reflexivity.
Qed.
Print Assumptions C87_complete_partial.
(** *** Nothing is invented or duplicated, whatever comes in *)
Definition cnt (x : nat) (l : list nat) : nat := count_occ Nat.eq_dec l x.
Lemma cnt_app x a b : cnt x (a ++ b) = cnt x a + cnt x b.
Proof. apply count_occ_app. Qed.
Lemma cnt_nil x : cnt x [] = 0.
Proof. reflexivity. Qed.
Lemma cnt_toks x k h kids tl : cnt x (toks (N k h kids tl)) = cnt x h + cnt x (ttoks kids) + cnt x tl.
Proof. cbn [toks]. rewrite !cnt_app. unfold ttoks. lia. Qed.
Lemma cnt_tcons x a l : cnt x (ttoks (a :: l)) = cnt x (toks a) + cnt x (ttoks l).
Proof. rewrite ttoks_cons. apply cnt_app. Qed.
Lemma cnt_tapp x a l : cnt x (ttoks (a ++ l)) = cnt x (ttoks a) + cnt x (ttoks l).
Proof. rewrite ttoks_app. apply cnt_app. Qed.
Lemma cnt_tnil x : cnt x (ttoks []) = 0.
Proof. reflexivity. Qed.
Lemma cnt_extend x t l : cnt x (toks (extend t l)) = cnt x (toks t) + cnt x (ttoks l).
Proof. destruct t. cbn [extend]. rewrite !cnt_toks, cnt_tapp. lia. Qed.
Lemma cnt_append x t u : cnt x (toks (append t u)) = cnt x (toks t) + cnt x (toks u).
Proof. unfold append. rewrite cnt_extend, cnt_tcons, cnt_tnil. lia. Qed.
Lemma cnt_rev x l : cnt x (ttoks (rev l)) = cnt x (ttoks l).
Proof. induction l as [|a l IH]; [reflexivity|]. cbn [rev]. rewrite cnt_tapp, !cnt_tcons, cnt_tnil, IH. lia. Qed.
Lemma cnt_pop x t : cnt x (toks (fst (pop_comments t))) + cnt x (ttoks (snd (pop_comments t))) = cnt x (toks t).
Proof.
  induction t as [k h kids tl F] using tree_induction. rewrite pop_unfold.
  assert (G : cnt x (ttoks (fst (go_pop kids))) + cnt x (ttoks (snd (go_pop kids))) = cnt x (ttoks kids)).
  { induction F as [|y kids Hy F IH]; [reflexivity|]. cbn [go_pop]. fold go_pop. destruct (go_pop kids) as (r, cs). cbn [fst snd] in IH. rewrite cnt_tcons, <- IH. destruct r as [|z r].
    - destruct (is_comment y); [cbn [fst snd]; rewrite cnt_tcons, cnt_tnil; lia|]. destruct (pop_comments y) as (y', cy). cbn [fst snd] in *. rewrite cnt_tcons, cnt_tapp, cnt_tnil. lia.
    - cbn [fst snd]. rewrite !cnt_tcons. lia. }
  destruct (go_pop kids) as (r, cs). cbn [fst snd] in *. rewrite !cnt_toks. lia.
Qed.
Lemma cnt_chain x es a : cnt x (toks (chain es a)) = cnt x (ttoks es) + cnt x (toks a).
Proof. induction es as [|e es IH]; [reflexivity|]. cbn [chain]. rewrite cnt_append, IH, cnt_tcons. lia. Qed.
Lemma cnt_filter x p l : cnt x (ttoks (filter p l)) <= cnt x (ttoks l).
Proof. induction l as [|a l IH]; [reflexivity|]. cbn [filter]. destruct (p a); rewrite ?cnt_tcons; lia. Qed.
Lemma cnt_extend_last x l e : l <> [] -> cnt x (ttoks (extend_last l e)) = cnt x (ttoks l) + cnt x (ttoks e).
Proof. intros NE. destruct (exists_last NE) as (a & y & ->). rewrite extend_last_app, !cnt_tapp, !cnt_tcons, cnt_extend, !cnt_tnil. lia. Qed.
Definition opt_cnt (x : nat) (o : option tree) : nat := match o with Some t => cnt x (toks t) | None => 0 end.
Definition st_cnt (x : nat) (s : st) : nat :=
  opt_cnt x (music s) + match dur s with Some l => cnt x l | None => 0 end + opt_cnt x (scaling s) + opt_cnt x (modifier s) + opt_cnt x (arts s) +
  cnt x (ttoks (events s)) + cnt x (ttoks (comments s)).
Lemma cnt_attach x o t cs : cnt x (toks (fst (attach o (t, cs)))) + cnt x (ttoks (snd (attach o (t, cs)))) = cnt x (toks t) + cnt x (ttoks cs) + opt_cnt x o.
Proof.
  destruct o as [n|]; cbn [attach opt_cnt]; [|cbn [fst snd]; lia]. pose proof (cnt_pop x n) as P. destruct (pop_comments n) as (n', cn). cbn [fst snd] in *. rewrite cnt_append, cnt_extend. lia.
Qed.
Lemma cnt_pending x s : cnt x (ttoks (pending s)) <= st_cnt x s.
Proof.
  unfold pending. rewrite cnt_tapp. pose proof (cnt_filter x next_event (events s)) as FE.
  match goal with |- context [match ?y with Some mc => _ | None => [] end] => set (mc := y) end.
  assert (B : match mc with Some (m, cs) => cnt x (toks m) + cnt x (ttoks cs) <= opt_cnt x (music s) + match dur s with Some l => cnt x l | None => 0 end + opt_cnt x (scaling s) + cnt x (ttoks (comments s)) | None => True end).
  { unfold mc, has_dur. destruct (dur s) as [[|d l]|]; cbv iota.
    - destruct (music s) as [m|]; [|exact I]. pose proof (cnt_pop x m) as P. destruct (pop_comments m) as (m', cs). cbn [fst snd opt_cnt] in *. lia.
    - assert (SC : cnt x (ttoks match scaling s with Some t => [t] | None => [] end) = opt_cnt x (scaling s)). { destruct (scaling s); cbn [opt_cnt]; [rewrite cnt_tcons, cnt_tnil; lia|reflexivity]. }
      destruct (music s) as [m|]; cbn [opt_cnt]; rewrite ?cnt_append, ?cnt_toks, ?cnt_tcons, ?cnt_toks, ?cnt_tnil, SC, ?cnt_nil; lia.
    - destruct (music s) as [m|]; [|exact I]. pose proof (cnt_pop x m) as P. destruct (pop_comments m) as (m', cs). cbn [fst snd opt_cnt] in *. lia. }
  clearbody mc. unfold st_cnt. destruct mc as [(m, cs)|]; [|rewrite cnt_tnil; lia].
  pose proof (cnt_attach x (modifier s) m cs) as A1. destruct (attach (modifier s) (m, cs)) as (m1, cs1). cbn [fst snd] in A1.
  pose proof (cnt_attach x (arts s) m1 cs1) as A2. destruct (attach (arts s) (m1, cs1)) as (m2, cs2). cbn [fst snd] in A2. rewrite cnt_tcons. lia.
Qed.
Lemma cnt_reset x : st_cnt x reset = 0.
Proof. reflexivity. Qed.
Lemma cnt_add_last x p n t s s' : add_to_last p n t s = Some s' -> st_cnt x s' = st_cnt x s + cnt x (toks t).
Proof.
  unfold add_to_last. destruct (rev (events s)) as [|e r] eqn:E; [discriminate|]. destruct (p (kind_of e) && (length (kids_of e) <? n)); [|discriminate]. intros H. injection H as <-.
  pose proof (cnt_rev x (events s)) as R. rewrite E, cnt_tcons in R. unfold st_cnt. cbn [music dur scaling modifier arts events comments set_events]. rewrite cnt_tapp, cnt_rev, cnt_tcons, cnt_append, cnt_tnil. lia.
Qed.
Lemma orelse_some {A} (a b : option A) c : orelse a b = Some c -> a = Some c \/ b = Some c.
Proof. destruct a; cbn; auto. Qed.
Lemma cnt_argument x t s s' : add_event_argument t s = Some s' -> st_cnt x s' = st_cnt x s + cnt x (toks t).
Proof. unfold add_event_argument. intros H. repeat (apply orelse_some in H; destruct H as [H|H]); eapply cnt_add_last; exact H. Qed.
Lemma cnt_articulation x t s : st_cnt x (add_articulation t s) <= st_cnt x s + cnt x (toks t).
Proof.
  unfold add_articulation. destruct (has (music s) || has_dur s); [|lia]. unfold st_cnt. cbn [music dur scaling modifier arts events comments set_arts set_events opt_cnt]. rewrite cnt_append, cnt_chain, cnt_tnil. destruct (arts s); cbn [opt_cnt]; [lia|]. rewrite cnt_toks, cnt_nil, ?cnt_tnil. lia.
Qed.
Lemma cnt_step x s i s' o : step s i = Ok (s', o) -> cnt x (ttoks o) + st_cnt x s' <= st_cnt x s + cnt x (item_toks i).
Proof.
  intros E. pose proof (cnt_pending x s) as P.
  assert (R : forall t, st_cnt x (set_music (Some t) reset) = cnt x (toks t)) by (intros; unfold st_cnt; cbn [music dur scaling modifier arts events comments set_music reset opt_cnt]; rewrite !cnt_tnil; lia).
  destruct i; cbn [step item_toks] in *.
  - injection E as <- <-. rewrite R, cnt_toks, cnt_tnil, ?cnt_nil. lia.
  - destruct (add_tweak (N KSymbol [token] [] []) s) as [s1|] eqn:A; injection E as <- <-.
    + rewrite (cnt_add_last x _ _ _ _ _ A), cnt_toks, cnt_tnil, ?cnt_nil. lia.
    + rewrite R, cnt_toks, cnt_tnil, ?cnt_nil. lia.
  - destruct (music s) as [[k h kids tl]|] eqn:M; [|injection E as <- <-; rewrite cnt_tnil; lia]. destruct k; injection E as <- <-; rewrite ?cnt_tnil; try lia.
    unfold st_cnt. cbn [music dur scaling modifier arts events comments set_modifier set_music]. rewrite M. cbn [opt_cnt]. rewrite !cnt_toks, cnt_tnil, ?cnt_nil. lia.
  - injection E as <- <-. unfold st_cnt. cbn [music dur scaling modifier arts events comments set_events]. rewrite cnt_tapp, cnt_tcons, cnt_toks, !cnt_tnil, ?cnt_nil. lia.
  - injection E as <- <-. pose proof (cnt_articulation x t s). rewrite cnt_tnil. lia.
  - destruct (has_dur s || has (arts s)); injection E as <- <-; unfold st_cnt in *; cbn [music dur scaling modifier arts events comments reset opt_cnt] in *; rewrite ?cnt_tnil in *; lia.
  - injection E as <- <-. rewrite cnt_tapp, cnt_reset. unfold ttoks at 2. lia.
  - destruct (has (music s) && negb (has (arts s))); injection E as <- <-; rewrite cnt_tnil; [|lia]. unfold st_cnt. cbn [music dur scaling modifier arts events comments set_modifier opt_cnt]. rewrite cnt_append. destruct (modifier s); cbn [opt_cnt]; [lia|]. rewrite cnt_toks, cnt_nil, ?cnt_tnil. lia.
  - injection E as <- <-. rewrite cnt_tnil. destruct (orelse (add_spanner_id t s) (add_tweak t s)) as [s1|] eqn:O; [|lia]. apply orelse_some in O. destruct O as [O|O]; rewrite (cnt_add_last x _ _ _ _ _ O); lia.
  - destruct (add_tweak t s) as [s1|] eqn:A; injection E as <- <-; [rewrite (cnt_add_last x _ _ _ _ _ A), cnt_tnil; lia|]. rewrite cnt_tapp, cnt_tcons, cnt_tnil, cnt_reset. lia.
  - destruct (events s); injection E as <- <-; [rewrite cnt_tapp, cnt_tcons, cnt_tnil, cnt_reset; lia|rewrite cnt_tnil; lia].
  - injection E as <- <-. rewrite cnt_tnil. lia.
  - destruct (modifier s) as [[k h kids tl]|] eqn:M; [|discriminate]. destruct kids as [|y kids]; [discriminate|]. injection E as <- <-. unfold st_cnt. cbn [music dur scaling modifier arts events comments set_modifier]. rewrite M. cbn [opt_cnt]. change (match kids with [] => [extend y l] | _ => y :: extend_last kids l end) with (extend_last (y :: kids) l). rewrite !cnt_toks, cnt_extend_last by discriminate. fold (ttoks l). rewrite cnt_tnil. lia.
  - injection E as <- <-. fold (ttoks l). lia.
  - fold (ttoks l). destruct (music s) as [m|] eqn:M; injection E as <- <-.
    + unfold st_cnt. cbn [music dur scaling modifier arts events comments set_music]. rewrite M. cbn [opt_cnt]. rewrite cnt_extend, cnt_tnil. lia.
    + rewrite cnt_tapp, cnt_reset. lia.
  - destruct (dur s) as [d|] eqn:D; [|discriminate]. injection E as <- <-. unfold st_cnt. cbn [music dur Music_Model.scaling modifier arts events comments]. rewrite D, !cnt_app, cnt_tnil. destruct scaling; cbn [opt_cnt opt_toks]; rewrite ?cnt_nil; lia.
  - injection E as <- <-. rewrite R. lia.
  - destruct (events s) as [|e es] eqn:EV; injection E as <- <-; [rewrite cnt_tapp, cnt_tcons, cnt_tnil, cnt_reset; lia|]. rewrite cnt_tnil. destruct (add_event_argument t s) as [s1|] eqn:A; [rewrite (cnt_argument x _ _ _ A); lia|]. pose proof (cnt_articulation x t s). lia.
  - injection E as E. fold (ttoks l).
    assert (G : forall l s0 o0, cnt x (ttoks (snd (fold_left (fun (so : st * list tree) t => let (s, out) := so in match events s with [] => (reset, out ++ pending s ++ [t]) | _ => (add_articulation t s, out) end) l (s0, o0)))) +
      st_cnt x (fst (fold_left (fun (so : st * list tree) t => let (s, out) := so in match events s with [] => (reset, out ++ pending s ++ [t]) | _ => (add_articulation t s, out) end) l (s0, o0))) <= cnt x (ttoks o0) + st_cnt x s0 + cnt x (ttoks l)).
    { clear. induction l as [|t l IH]; intros s0 o0; cbn [fold_left]; [cbn [fst snd]; lia|]. rewrite cnt_tcons. destruct (events s0) eqn:EV.
      - specialize (IH reset (o0 ++ pending s0 ++ [t])). rewrite !cnt_tapp, cnt_tcons, cnt_tnil, cnt_reset in IH. pose proof (cnt_pending x s0). lia.
      - specialize (IH (add_articulation t s0) o0). pose proof (cnt_articulation x t s0). lia. }
    specialize (G l s []). rewrite E in G. cbn [fst snd] in G. rewrite cnt_tnil in G. lia.
  - destruct (events s) as [|e es]; injection E as <- <-; [rewrite cnt_tapp, cnt_tcons, cnt_tnil, cnt_reset; lia|]. rewrite cnt_tnil. pose proof (cnt_articulation x t s). lia.
  - destruct (modifier s) as [m|] eqn:M.
    + injection E as <- <-. unfold st_cnt. cbn [music dur scaling modifier arts events comments set_modifier]. rewrite M. cbn [opt_cnt]. rewrite cnt_append, cnt_tnil. lia.
    + destruct (rev (events s)) as [|e r] eqn:EV.
      * destruct (arts s) as [a|] eqn:A.
        -- injection E as <- <-. unfold st_cnt. cbn [music dur scaling modifier arts events comments set_arts]. rewrite A. cbn [opt_cnt]. rewrite cnt_append, cnt_tnil. lia.
        -- destruct (negb (has (music s)) && negb (has_dur s)); injection E as <- <-; [rewrite cnt_tcons, cnt_tnil; lia|]. unfold st_cnt. cbn [music dur scaling modifier arts events comments set_comments]. rewrite cnt_tapp, cnt_tcons, !cnt_tnil. lia.
      * injection E as <- <-. pose proof (cnt_rev x (events s)) as RV. rewrite EV, cnt_tcons in RV. unfold st_cnt. cbn [music dur scaling modifier arts events comments set_events]. rewrite cnt_tapp, cnt_rev, cnt_tcons, cnt_append, !cnt_tnil. lia.
Qed.
(** Whatever the items are, no token is more often in the result than in the items. *)
Theorem C87_nothing_invented : forall l out, build l = Ok out ->
  forall x, count_occ Nat.eq_dec (flat_map toks out) x <= count_occ Nat.eq_dec (flat_map item_toks l) x.
Proof.
  assert (G : forall x l s out, steps s l = Ok out -> cnt x (ttoks out) <= st_cnt x s + cnt x (itoks l)).
  { intros x. induction l as [|i l IH]; intros s out E; cbn [steps] in E.
    - injection E as <-. pose proof (cnt_pending x s). lia.
    - destruct (step s i) as [(s1, o1)|] eqn:S1; [|discriminate]. cbn [bindr] in E. destruct (steps s1 l) as [o2|] eqn:S2; [|discriminate]. injection E as <-. pose proof (cnt_step x _ _ _ _ S1). pose proof (IH _ _ S2). rewrite cnt_tapp, itoks_cons, cnt_app. lia. }
  intros l out E x. exact (G x l reset out E).
Qed.
Print Assumptions C87_nothing_invented.
Ltac okay := unfold piece_ok, music_ok, articulation_ok, event_ok, for_next_note; cbn;
  repeat match goal with
  | |- _ /\ _ => split
  | |- Forall _ _ => constructor
  | |- _ -> _ => intro
  | |- True => exact I
  | |- comment _ => reflexivity
  | |- quiet (N _ _ [] _) => apply quiet_leaf; discriminate
  | |- exists _, _ => eexists; try reflexivity
  | |- KTag = KTweak \/ _ => right; left; reflexivity
  end; cbn; try discriminate; try reflexivity; try contradiction; try (eexists; reflexivity); try (apply quiet_leaf; discriminate); try tauto.
(** A note with comment, duration, articulations with a direction and a tag, a tag for the next note; a chord modifier; an isolated
    duration; text. *)
Example C87_witness :
  let note := {| g_start := SPitch KNote 1 [N (KElem 0) [2] [] []] [N KComment [3] [] []]; g_before := []; g_dur := Some (4, [5], None); g_after := [N KComment [6] [] []];
    g_mods := MNone; g_arts := [({| ar_events := [{| ev_kind := KTag; ev_token := 7; ev_args := [AObject (N (KElem 1) [8] [] [])] |}; {| ev_kind := KDirection; ev_token := 9; ev_args := [] |}];
                                    ar_body := BString (N (KElem 2) [10] [] []) |}, [N KComment [11] [] []]); ({| ar_events := []; ar_body := BScript (N (KElem 3) [12] [] []) |}, [N KComment [13] [] []])];
    g_next := [{| ev_kind := KTag; ev_token := 14; ev_args := [AObject (N (KElem 1) [15] [] [])] |}] |} in
  let chord := {| g_start := SPitch KNote 16 [] []; g_before := []; g_dur := None; g_after := []; g_mods := MChord [(N (KElem 4) [17] [] [], [N (KElem 5) [18] [] []], [N KComment [19] [] []])]; g_arts := []; g_next := [] |} in
  let rest := {| g_start := SToken (KElem 6) [20]; g_before := []; g_dur := Some (21, [], None); g_after := []; g_mods := MNone; g_arts := []; g_next := [] |} in
  let lone := {| g_start := SNone; g_before := []; g_dur := Some (22, [], Some (N (KElem 7) [23] [] [])); g_after := [N KComment [24] [] []]; g_mods := MNone; g_arts := []; g_next := [] |} in
  let l := [PMusic note; PMusic chord; PMusic rest; PMusic lone; PString (N (KElem 8) [25] [] []); PComment (N KComment [26] [] [])] in
  stream Clear l /\ Forall no_tail l /\ Forall in_place l /\ flat_map toks (flat_map piece_trees l) = seq 1 26 /\
  piece_trees (PMusic note) = [N KNote [1] [N (KElem 0) [2] [] []; N KComment [3] [] []; N KDuration [4; 5] [] []; N KComment [6] [] [];
      N KArticulations [] [N KTag [7] [N (KElem 1) [8] [] []; N KDirection [9] [N (KElem 2) [10] [] []] []] []; N KComment [11] [] []; N (KElem 3) [12] [] []] []] [];
    N KComment [13] [] []; N KTag [14] [N (KElem 1) [15] [] []] []] /\
  piece_trees (PMusic chord) = [N KNote [16] [N KChordModifiers [] [N (KElem 4) [17] [N (KElem 5) [18] [] []] []] []] []; N KComment [19] [] []].
Proof.
  cbv zeta. split; [|split; [|split; [|split; [|split]]]]; try reflexivity; try (repeat constructor; fail).
  constructor; [exact I| |constructor; [exact I| |constructor; [exact I| |constructor; [right; exists false; reflexivity| |constructor; [right; exists true; reflexivity|exact I|constructor; [reflexivity|exact I|constructor]]]]]].
  - okay.
  - okay. apply (quiet_last (KElem 4) [17] [] (N (KElem 5) [18] [] [])); [discriminate|apply quiet_leaf; discriminate].
  - okay.
  - okay.
Qed.

(** *** Where tokens get lost or move *)
(** A comment after a chord, rest, skip ... that has no duration is lost, also if an articulation follows. *)
Theorem C87_comment_finding : forall t c, quiet t -> comment c ->
  build [CMusic t; CComment c] = Ok [t] /\
  forall a, quiet a -> build [CMusic t; CComment c; TArt a] = Ok [with_more t [N KArticulations [] [a] []]].
Proof.
  intros t c Q C. split.
  - unfold build. cbn [steps step bindr pending has_dur dur music arts modifier attach events reset set_music rev has negb andb orb set_comments comments app]. unfold pending. cbn. rewrite (pop_quiet t Q). reflexivity.
  - intros a QA. unfold build. cbn. unfold pending. cbn. rewrite (pop_quiet t Q). cbn. pose proof (quiet_not_comment a QA) as NC. rewrite NC, (pop_quiet a QA). destruct t. cbn. rewrite app_nil_r. reflexivity.
Qed.
Print Assumptions C87_comment_finding.
Example C87_comment_witness : build [CMusic (N (KElem 0) [] [N (KElem 1) [1] [] [2]] []); CComment (N KComment [3] [] []); TMusic (KElem 2) [4]] =
  Ok [N (KElem 0) [] [N (KElem 1) [1] [] [2]] []; N (KElem 2) [4] [] []].
Proof. reflexivity. Qed.
(** An articulation, number or symbol with nothing to belong to is lost; and so is a direction that is not followed by an articulation. *)
Theorem C87_unbound_finding : forall t k h d, build [TArt t] = Ok [] /\ build [TNumber t] = Ok [] /\ build [TMusic k h; TEvent KDirection d; TOut [t]] = Ok [N k h [] []; t].
Proof. repeat split. Qed.
Print Assumptions C87_unbound_finding.
(** A chord modifier after an articulation raises an error. *)
Theorem C87_modifier_finding : forall k h a m l, build [TPitch k h; TArt a; TChordMod m; CModifier l] = Err TypeError.
Proof. reflexivity. Qed.
Print Assumptions C87_modifier_finding.
(** A comment after an articulation moves to before the articulations if there is a modifier. *)
Theorem C87_moved_finding : forall k h m a c, quiet m -> quiet a -> comment c ->
  build [TPitch k h; TChordMod m; TArt a; CComment c] = Ok [N k [h] [N KChordModifiers [] [m] []; c; N KArticulations [] [a] []] []].
Proof.
  intros k h m a c QM QA C. unfold build. cbn. unfold pending. cbn. rewrite (comment_is c C), (quiet_not_comment m QM), (pop_quiet m QM), (quiet_not_comment a QA), (pop_quiet a QA). reflexivity.
Qed.
Print Assumptions C87_moved_finding.
Example C87_moved_witness : quiet (N (KElem 0) [2] [] []) /\ comment (N KComment [4] [] []).
Proof. split; [constructor; discriminate|reflexivity]. Qed.
(** A tag before an isolated duration is moved to after it; and the duration is given to the note before the tag if that has none. *)
Theorem C87_isolated_finding : forall k n h a d,
  build [TEvent KTag h; CArg a; TDur d] = Ok [N KUnpitched [] [N KDuration [d] [] []] []; N KTag [h] [a] []] /\
  build [TPitch k n; TEvent KTag h; CArg a; TDur d] = Ok [N k [n] [N KDuration [d] [] []] []; N KTag [h] [a] []].
Proof. split; reflexivity. Qed.
Print Assumptions C87_isolated_finding.

(** ** C88: lyrics *)
Theorem C88_lyrics : forall l, lyrics l (postprocess_lyriclist l).
Proof.
  assert (G : forall l, lyrics l (lyric_loop None l) /\ forall k h kids, syllable k -> lyrics (L k h kids :: l) (lyric_loop (Some [L k h kids]) l)).
  { assert (SY : forall k h kids, is_syllable (L k h kids) = true <-> syllable k).
    { intros k h kids. unfold syllable. destruct k; cbn; intuition discriminate. }
    induction l as [|(k, h, kids) l (IH1 & IH2)].
    - split; [constructor|]. intros k h kids S. apply lyrics_untimed; [exact S|discriminate|constructor].
    - split.
      + destruct k as [| | | | |n]; cbn [lyric_loop is_syllable yield_item app].
        * apply lyrics_duration. exact IH1.
        * apply IH2. unfold syllable. tauto.
        * apply IH2. unfold syllable. tauto.
        * apply IH2. unfold syllable. tauto.
        * apply IH2. unfold syllable. tauto.
        * apply lyrics_other. exact IH1.
      + intros k0 h0 kids0 S. destruct k as [| | | | |n]; cbn [lyric_loop is_syllable yield_item app].
        * apply lyrics_timed; assumption.
        * apply lyrics_untimed; [exact S|discriminate|]. apply IH2. unfold syllable. tauto.
        * apply lyrics_untimed; [exact S|discriminate|]. apply IH2. unfold syllable. tauto.
        * apply lyrics_untimed; [exact S|discriminate|]. apply IH2. unfold syllable. tauto.
        * apply lyrics_untimed; [exact S|discriminate|]. apply IH2. unfold syllable. tauto.
        * apply lyrics_untimed; [exact S|discriminate|]. apply lyrics_other. exact IH1. }
  intros l. apply G.
Qed.
Print Assumptions C88_lyrics.
(** The lyrics have only one reading; and no token is lost or moved (an isolated duration has no tokens of its own). *)
Theorem C88_deterministic : forall l a b, lyrics l a -> lyrics l b -> a = b.
Proof.
  intros l a b A. revert b. induction A as [|k h kids h' d l o S A IH|k h kids l o S NU A IH|h d l o A IH|n h kids l o A IH]; intros b B; inversion B; subst; try (f_equal; auto; fail); try (exfalso; unfold syllable in *; intuition discriminate).
  - exfalso. match goal with H : forall h' d l', _ <> _ |- _ => eapply H; reflexivity end.
  - exfalso. eapply NU. reflexivity.
Qed.
Print Assumptions C88_deterministic.
Theorem C88_order : forall l, (forall h d, In (L LUnpitched h d) l -> h = []) -> flat_map lout_toks (postprocess_lyriclist l) = flat_map lnode_toks l.
Proof.
  intros l H. pose proof (C88_lyrics l) as Y. induction Y as [|k h kids h' d l o S A IH|k h kids l o S NU A IH|h d l o A IH|n h kids l o A IH]; cbn [flat_map lout_toks lnode_toks].
  - reflexivity.
  - rewrite (H h' d) by (right; left; reflexivity). rewrite IH by (intros ? ? I0; apply (H h0 d0); right; right; exact I0). cbn [app]. rewrite <- !app_assoc. reflexivity.
  - rewrite app_nil_r, IH by (intros ? ? I0; apply (H h0 d); right; exact I0). reflexivity.
  - rewrite (H h d) by (left; reflexivity). rewrite IH by (intros ? ? I0; apply (H h0 d0); right; exact I0). reflexivity.
  - rewrite IH by (intros ? ? I0; apply (H h0 d); right; exact I0). reflexivity.
Qed.
Print Assumptions C88_order.
Example C88_witness : let d := L (LElse 0) [2] [] in
  postprocess_lyriclist [L LString [1] []; L LUnpitched [] [d]; L (LElse 1) [3] []; L LUnpitched [] [d]; L LMarkup [4] []; L LScheme [5] []; L LUnpitched [] [d]] =
  [OItem [L LString [1] []; d]; ONode (L (LElse 1) [3] []); OItem [d]; OItem [L LMarkup [4] []]; OItem [L LScheme [5] []; d]].
Proof. reflexivity. Qed.
(** A comment between a syllable and its duration makes the duration a syllable of its own. *)
Theorem C88_comment_finding : forall k h kids c ch ck uh d, syllable k ->
  postprocess_lyriclist [L k h kids; L (LElse c) ch ck; L LUnpitched uh d] = [OItem [L k h kids]; ONode (L (LElse c) ch ck); OItem d].
Proof. intros k h kids c ch ck uh d [->|[->|[->| ->]]]; reflexivity. Qed.
Print Assumptions C88_comment_finding.

(** ** C89: figured bass *)
Theorem C89_figures : forall l, create_figure (flat_map figure_items l) = map figure_tree l.
Proof.
  assert (M : forall x p r, figure_loop (Some p) (map (fun x : bool * tree => if fst x then FAcc (snd x) else FAlt (snd x)) x ++ r) = figure_loop (Some (with_more p (map snd x))) r).
  { induction x as [|(b, t) x IH]; intros p r; cbn [map app].
    - rewrite with_more_nil. reflexivity.
    - cbn [fst snd]. assert (E : figure_loop (Some p) ((if b then FAcc t else FAlt t) :: map (fun x0 : bool * tree => if fst x0 then FAcc (snd x0) else FAlt (snd x0)) x ++ r) = figure_loop (Some (append p t)) (map (fun x0 : bool * tree => if fst x0 then FAcc (snd x0) else FAlt (snd x0)) x ++ r)) by (destruct b; reflexivity).
      rewrite E, IH. f_equal. f_equal. destruct p. cbn. rewrite <- app_assoc. reflexivity. }
  assert (G : forall l p, figure_loop p (flat_map figure_items l) = yield_step p ++ map figure_tree l).
  { induction l as [|(h, x) l IH]; intros p; [symmetry; apply app_nil_r|]. cbn [flat_map map]. unfold figure_items at 1. cbn [fst snd app]. unfold figure_tree at 1. cbn [fst snd].
    destruct h; cbn [figure_loop hd_error]; rewrite M, IH; reflexivity. }
  intros l. exact (G l None).
Qed.
Print Assumptions C89_figures.
Example C89_witness : create_figure (flat_map figure_items [(HStep (KElem 0) 1, [(true, N (KElem 1) [2] [] []); (false, N (KElem 2) [3] [] [])]); (HElem (N (KElem 3) [4] [] [5]), []); (HStep (KElem 0) 6, [])]) =
  [N (KElem 0) [1] [N (KElem 1) [2] [] []; N (KElem 2) [3] [] []] []; N (KElem 3) [4] [] [5]; N (KElem 0) [6] [] []].
Proof. reflexivity. Qed.
(** An accidental before the first figure is lost, and one after a comment becomes a child of the comment. *)
Theorem C89_finding : forall t l k h c a, create_figure (FAcc t :: l) = create_figure l /\ create_figure (FAlt t :: l) = create_figure l /\
  (comment c -> create_figure [FStep k h; FElem c; FAcc a] = [N k [h] [] []; with_more c [a]]).
Proof. repeat split. Qed.
Print Assumptions C89_finding.
