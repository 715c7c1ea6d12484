(** Property C147: an edit of the children of a node, in the text that is written. *)
From Coq Require Import String List ZArith Bool PeanoNat Lia.
From Verif Require Import Base Node_Model Node_Spec Node_Proofs Node_Nav Node_More Node_Edits Node_Props Node_Frame Node_Undo Node_History.
From Verif Require Element_Model Element_Spec Range_Text.
Import ListNotations.

(** ** Specification *)

(** The texts of a tree of nodes, in the order in which they are written (C48); [attr] gives the texts of the nodes themselves. *)
Definition texts_of (attr : nat -> Element_Model.attrs) (t : tree) : list (res str) := Element_Spec.texts (Range_Text.elements attr t).
(** The texts of the node itself: before and after those of its children. *)
Definition own_head (attr : nat -> Element_Model.attrs) (n : nat) : list (res str) :=
  match Element_Model.a_kind (attr n) with Element_Model.Plain => [] | _ => [Element_Model.a_head (attr n)] end.
Definition own_tail (attr : nat -> Element_Model.attrs) (n : nat) : list (res str) :=
  match Element_Model.a_kind (attr n) with Element_Model.Block => [Ok (Element_Model.a_tail (attr n))] | _ => [] end.

(** ** Proofs *)

Lemma own_texts attr n ts : texts_of attr (T n ts) = own_head attr n ++ flat_map (texts_of attr) ts ++ own_tail attr n.
Proof. apply Range_Text.texts_elements. Qed.

Section Written.
Context {B : Type}.
Variable h : heap B.
Variable p : nat.

Lemma rep_same t : forall u, rep h t -> rep h u -> tid t = tid u -> t = u.
Proof.
  induction t as [n ts IH] using tree_ind2. intros [m us]. rewrite !rep_eq. cbn [tid]. intros [E F] [E' F'] <-. f_equal. rewrite E in E'. clear E.
  revert us E' F'. induction ts as [|t ts IHl]; intros [|u us] E' F'; cbn in E'; try discriminate; [reflexivity|]. injection E' as E1 E2.
  inversion IH; subst. inversion F; subst. inversion F'; subst. f_equal; auto.
Qed.

Lemma with_outside ts t : rep h t -> ~ inside h (tid t) p -> with_children p ts t = t.
Proof.
  induction t as [n l IH] using tree_ind2. rewrite rep_eq. cbn [tid with_children]. intros [E F] O.
  destruct (Nat.eqb_spec n p) as [->|NE]; [elim O; exists []; constructor|]. f_equal. rewrite <- (map_id l) at 2. apply map_ext_in. intros u U.
  rewrite Forall_forall in IH, F. apply IH; [exact U|now apply F|]. intros (q & A). apply O. apply (in_map tid) in U. rewrite <- E in U. apply In_nth_error in U as (j & U).
  exists (j :: q). econstructor; eassumption.
Qed.

Lemma with_texts attr ts : forall t q, rep h t -> (forall a b, at_path h (tid t) a p -> at_path h (tid t) b p -> a = b) -> at_path h (tid t) q p ->
  exists a b l, rep h (T p l) /\ texts_of attr t = a ++ texts_of attr (T p l) ++ b /\ texts_of attr (with_children p ts t) = a ++ texts_of attr (T p ts) ++ b.
Proof.
  induction t as [n l IH] using tree_ind2. intros q R U A. cbn [tid] in *. cbn [with_children]. destruct (Nat.eqb_spec n p) as [->|NE].
  { exists [], [], l. rewrite !app_nil_r. auto. }
  inversion A as [|? i c s ? J A']; subst; [congruence|]. destruct (rep_kids_inv h n l i c R J) as (u & JU & <- & RU).
  apply nth_error_split in JU as (l1 & l2 & -> & L). assert (R' := R). rewrite rep_eq in R'. destruct R' as [E F].
  rewrite Forall_forall in IH, F. assert (UI : In u (l1 ++ u :: l2)) by (apply in_or_app; right; now left).
  destruct (IH u UI s RU) as (a & b & k & RK & X & Y); [|exact A'|].
  { intros x y AX AY. assert (Z : i :: x = i :: y) by (apply U; econstructor; eassumption). now injection Z. }
  assert (O : forall v j, nth_error (l1 ++ u :: l2) j = Some v -> j <> i -> with_children p ts v = v).
  { intros v j JV NJ. apply with_outside; [apply F; eapply nth_error_In; exact JV|]. intros (z & AZ). apply NJ.
    assert (Z : j :: z = i :: s) by (apply U; [econstructor; [eapply rep_kids; eassumption|exact AZ]|exact A]). now injection Z. }
  assert (M1 : map (with_children p ts) l1 = l1).
  { rewrite <- (map_id l1) at 2. apply map_ext_in. intros v V. apply In_nth_error in V as (j & V). assert (j < List.length l1) by (apply nth_error_Some; congruence).
    apply (O v j); [rewrite nth_error_app1 by assumption; exact V|lia]. }
  assert (M2 : map (with_children p ts) l2 = l2).
  { rewrite <- (map_id l2) at 2. apply map_ext_in. intros v V. apply In_nth_error in V as (j & V).
    apply (O v (S (List.length l1 + j))); [rewrite nth_error_app2 by lia; replace (S (List.length l1 + j) - List.length l1) with (S j) by lia; exact V|lia]. }
  rewrite map_app. cbn [map]. rewrite M1, M2. rewrite !own_texts, !flat_map_app. cbn [flat_map]. rewrite X, Y.
  exists (own_head attr n ++ flat_map (texts_of attr) l1 ++ a), (b ++ flat_map (texts_of attr) l2 ++ own_tail attr n), k.
  split; [exact RK|]. rewrite !own_texts. split; rewrite <- !app_assoc; reflexivity.
Qed.
End Written.

(** ** Theorems *)

(** When the children of a node are edited, all texts of the document that do not belong to the node or to what is in it are written as before, and in
    the same place; in between, the head and tail of the node itself, and now the texts of its new children, which are those they had before. *)
Theorem C147_edit : forall {B} (h : heap B) attr e p t, integrity h -> permitted h e -> target h e = Some p ->
  rep h t -> par h (tid t) = None -> inside h (tid t) p ->
  exists before after old new t', rep (perform h e) t' /\ tid t' = tid t /\
    map tid old = kids h p /\ map tid new = kids (perform h e) p /\ Forall (rep h) old /\ Forall (rep h) new /\
    texts_of attr t = before ++ (own_head attr p ++ flat_map (texts_of attr) old ++ own_tail attr p) ++ after /\
    texts_of attr t' = before ++ (own_head attr p ++ flat_map (texts_of attr) new ++ own_tail attr p) ++ after.
Proof.
  intros B h attr e p t I PE TG R RT (q & A). destruct (C141_tree h e p I PE TG) as (ts & M & F & W).
  destruct (with_texts h p attr ts t q R) as (a & b & l & RL & X & Y); [|exact A|].
  { intros x y AX AY. eapply path_unique; eauto. }
  rewrite rep_eq in RL. destruct RL as [E FL]. exists a, b, l, ts, (with_children p ts t). rewrite X, Y, !own_texts.
  split; [now apply W|]. split; [now destruct t|]. split; [now symmetry|]. auto.
Qed.
Print Assumptions C147_edit.

(** A document after any history of edits that was taken back has the same texts. *)
Theorem C147_undo : forall {B} (h : heap B) es t t', integrity h -> history h es ->
  rep h t -> rep (performs (performs h es) (undo h es)) t' -> tid t' = tid t -> forall attr, texts_of attr t' = texts_of attr t.
Proof.
  intros B h es t t' I H R R' E attr. destruct (C146_undo es h I H) as (_ & _ & S & _). f_equal.
  apply (rep_same (performs (performs h es) (undo h es))); [exact R'| |exact E]. clear R' E. revert R. induction t as [n l IH] using tree_ind2. rewrite !rep_eq. intros [E F].
  rewrite (S n). split; [exact E|]. rewrite Forall_forall in *. auto.
Qed.
Print Assumptions C147_undo.

(** 4 = (3 = (0, 1), 2), written as d { a b } c: the node 0 is taken out of 3. *)
Definition ex_texts (n : nat) : Element_Model.attrs :=
  let leaf x := Element_Model.Attrs Element_Model.Head n (Ok (txt x)) [] None None false false [] [] [] [] [] in
  match n with
  | 0 => leaf "a"%string | 1 => leaf "b"%string | 2 => leaf "c"%string | 4 => leaf "d"%string
  | _ => Element_Model.Attrs Element_Model.Block n (Ok (txt "{"%string)) (txt "}"%string) None None false false [] [] [] [] []
  end.
Example C147_witness : let e := DelItem 3 0 in let t := T 4 [T 3 [T 0 []; T 1 []]; T 2 []] in let t' := T 4 [T 3 [T 1 []]; T 2 []] in
  integrity ex /\ permitted ex e /\ target ex e = Some 3 /\ rep ex t /\ par ex (tid t) = None /\ inside ex (tid t) 3 /\ rep (perform ex e) t' /\
  texts_of ex_texts t = map (fun x => Ok (txt x)) ["d"; "{"; "a"; "b"; "}"; "c"]%string /\
  texts_of ex_texts t' = map (fun x => Ok (txt x)) ["d"; "{"; "b"; "}"; "c"]%string /\
  history ex [e] /\ undo ex [e] = [SetSlice 3 None None [0; 1]].
Proof.
  cbv zeta. split; [apply ex_integrity|]. split; [exact Logic.I|]. split; [reflexivity|]. split; [repeat split|]. split; [reflexivity|].
  split; [exists [0]; econstructor; [reflexivity|constructor]|]. repeat split.
Qed.
