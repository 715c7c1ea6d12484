(** The key signature of a \key command: the property C104. *)
From Coq Require Import String Ascii List ZArith QArith Bool Lia.
From Verif Require Import Base Pitch_Model Key_Model Key_Spec Key_Props Keysig_Model Keysig_Spec.
Import ListNotations.
Local Open Scope string_scope.
Local Open Scope list_scope.
Open Scope nat_scope.

Section Ind.
Variable Q : sel -> Prop.
Hypothesis H : forall k l, Forall Q l -> Q (SE k l).
Fixpoint sel_ind2 (e : sel) : Q e :=
  match e with
  | SE k l => H k l ((fix all (l : list sel) : Forall Q l := match l with [] => Forall_nil _ | x :: r => Forall_cons _ (sel_ind2 x) (all r) end) l)
  end.
End Ind.

Definition own (x : sel) : list (list sel) := match x with SE SList l => [l] | _ => [] end ++ lists_below x.
Lemma lists_E : forall k l, lists_below (SE k l) = flat_map own l.
Proof. reflexivity. Qed.
Lemma listless_own : forall x, listless x -> own x = [].
Proof.
  apply (sel_ind2 (fun x => listless x -> own x = [])). intros k l H L. inversion L as [? ? K F]; subst. unfold own. rewrite lists_E.
  assert (E : flat_map own l = []).
  { clear L. induction H as [|x r Hx Hr IH]; [reflexivity|]. inversion F as [|? ? A B]; subst. cbn [flat_map]. rewrite (Hx A), (IH B). reflexivity. }
  rewrite E. destruct k; [congruence|reflexivity|reflexivity].
Qed.
Lemma listless_all_own : forall l, Forall listless l -> flat_map own l = [].
Proof. induction l as [|x l IH]; intros F; [reflexivity|]. inversion F; subst. cbn [flat_map]. rewrite listless_own, IH by assumption. reflexivity. Qed.
Lemma numbers_ok : forall kids l, numbers kids l -> numbers_in kids = l.
Proof.
  intros kids l N. induction N as [|q kids r l N IH|k kids r l K N IH]; [reflexivity| |].
  - unfold numbers_in in *. cbn [flat_map app]. now rewrite IH.
  - unfold numbers_in in *. cbn [flat_map]. destruct k as [|q|i]; [exact IH|destruct (K q eq_refl)|exact IH].
Qed.
Lemma the_list_ok : forall e l, the_list e l -> exists kids, lists_below e = [kids] /\ numbers_in kids = l /\ (forall k, e <> SE SList k).
Proof.
  intros e l L. induction L as [k a kids b l K A B C N|k a x b l K A B L IH].
  - exists kids. rewrite lists_E, flat_map_app. cbn [flat_map]. rewrite !listless_all_own by assumption. unfold own. rewrite lists_E, listless_all_own by assumption.
    split; [reflexivity|]. split; [now apply numbers_ok|]. congruence.
  - destruct IH as (kids & E & N & NL). exists kids. rewrite lists_E, flat_map_app. cbn [flat_map]. rewrite !listless_all_own by assumption. unfold own. rewrite E.
    split; [|split; [exact N|congruence]]. destruct x as [[| |] kl]; [destruct (NL kl eq_refl)|reflexivity|reflexivity].
Qed.

Section Key.
Variable scope : Type.
Variable find : value scope -> str -> option (child * option scope).
Variable T : tables.
Variable P : processor.

Lemma key_children_app : forall a b s, key_children scope find T P s (a ++ b) = (let! s := key_children scope find T P s a in key_children scope find T P s b).
Proof. induction a as [|x a IH]; intros b s; [reflexivity|]. cbn [app key_children]. destruct (key_child scope find T P s x) as [s'|e]; [apply IH|reflexivity]. Qed.
Lemma key_children_else : forall a s, Forall (fun x => exists i, x = KElse i) a -> key_children scope find T P s a = Ok s.
Proof. induction a as [|x a IH]; intros s F; [reflexivity|]. inversion F as [|? ? [i ->] F']; subst. cbn [key_children key_child bindr]. now apply IH. Qed.

(** With a mode name or a list of alterations, the key is that of the pitch and the mode.
    Missing for the full claim: if the mode is a variable (mode_variable), it is not found (C104_variable_finding). *)
Theorem C104_key_partial : forall kids p m sc v mode, arguments kids p m -> (forall name, m <> KRef name) ->
  mode_value scope find sc m mode -> read_node T P p = Ok v ->
  key_signature_of scope find T P kids sc = (let! k := make_key (note v) (alter v) mode [] in Ok (Some k)).
Proof.
  intros kids p m sc v mode A NR M R. destruct A as [a p b m c FA FB FC]. unfold key_signature_of.
  rewrite key_children_app, key_children_else by assumption. cbn [bindr key_children key_child]. rewrite R. cbn [bindr].
  rewrite key_children_app, key_children_else by assumption. cbn [bindr key_children].
  destruct M as [sc h NE|sc e l L NE|sc name x sc' m F M].
  - cbn [key_child bindr]. rewrite key_children_else by assumption. cbn [bindr s_pitch s_mode]. destruct h; [congruence|reflexivity].
  - destruct (the_list_ok e l L) as (k & E & N & _). cbn [key_child bindr]. rewrite E. cbn [fold_left]. rewrite key_children_else by assumption. cbn [bindr s_pitch s_mode]. rewrite N.
    destruct l; [congruence|reflexivity].
  - destruct (NR name eq_refl).
Qed.

(** So that a key in one of the named modes has the accidentals of the theory books: the letter of every degree, with its accidental, sounds
    at the tonic plus the semitones of the mode. *)
Theorem C104_accidentals : forall kids p sc name semis v, arguments kids p (KMode name) -> In (name, semis) mode_semitones -> read_node T P p = Ok v ->
  exists ks, key_signature_of scope find T P kids sc = Ok (Some ks) /\
  forall i, (0 <= i < 7)%Z ->
   (degree major_scale (note v + i) + at_ (k_accidentals ks) ((note v + i) mod 7) == degree major_scale (note v) + alter v + inject_Z (nth (Z.to_nat i) semis 0%Z) / 2)%Q.
Proof.
  intros kids p sc name semis v A I R. destruct (C32_named_modes (note v) (alter v) name semis I) as (ks & E & S). exists ks. split; [|exact S].
  assert (NE : name <> []). { cbn [mode_semitones In] in I. repeat (destruct I as [I|I]; [injection I as <- _; discriminate|]). destruct I. }
  rewrite (C104_key_partial kids p (KMode name) sc v (ModeName name) A ltac:(discriminate) (mode_name _ _ _ _ NE) R), E. reflexivity.
Qed.

(** The octave of the pitch does not matter. *)
Theorem C104_octave : forall kids p m sc o, arguments kids p m ->
  exists kids', arguments kids' (PNode (head p) o (oct_check p)) m /\ key_signature_of scope find T P kids' sc = key_signature_of scope find T P kids sc.
Proof.
  intros kids p m sc o A. destruct A as [a p b m c FA FB FC]. exists (a ++ KPitch (PNode (head p) o (oct_check p)) :: b ++ m :: c). split; [now constructor|].
  unfold key_signature_of. rewrite !key_children_app, !key_children_else by assumption. cbn [bindr key_children key_child]. unfold read_node. cbn [head].
  destruct (pitch_of_name T P (head p)) as [q|e]; [|reflexivity]. cbn [bindr]. rewrite !key_children_app, !key_children_else by assumption. cbn [bindr key_children].
  destruct m as [p'|h|name|e|i]; cbn [key_child s_pitch s_mode s_scope].
  - destruct (read_node T P p') as [q'|e]; [|reflexivity]. cbn [bindr]. rewrite !key_children_else by assumption. reflexivity.
  - cbn [bindr]. rewrite !key_children_else by assumption. reflexivity.
  - destruct (find _ name) as [[x sc']|]; [|reflexivity]. cbn [bindr]. rewrite !key_children_else by assumption. reflexivity.
  - cbn [bindr]. rewrite !key_children_else by assumption. cbn [bindr s_pitch s_mode s_scope note alter]. destruct (fold_left _ _ _) as [mm|]; [|reflexivity]. reflexivity.
  - cbn [bindr]. rewrite !key_children_else by assumption. reflexivity.
Qed.

(** Without a pitch, or without a mode, there is no key. *)
Theorem C104_none : forall kids sc, (forall p, ~ In (KPitch p) kids) \/ (forall h, ~ In (KMode h) kids) /\ (forall e, ~ In (KScheme e) kids) ->
  (forall x, In (KPitch x) kids -> exists v, read_node T P x = Ok v) -> (forall name, ~ In (KRef name) kids) ->
  key_signature_of scope find T P kids sc = Ok None.
Proof.
  intros kids sc H R NR.
  assert (X : forall s, exists s', key_children scope find T P s kids = Ok s' /\
    ((forall p, ~ In (KPitch p) kids) -> s_pitch _ s' = s_pitch _ s) /\ ((forall h, ~ In (KMode h) kids) /\ (forall e, ~ In (KScheme e) kids) -> s_mode _ s' = s_mode _ s)).
  { clear H. induction kids as [|x kids IH]; intros s; [exists s; auto|]. cbn [key_children].
    assert (Y : exists s1, key_child scope find T P s x = Ok s1 /\ ((forall p, x <> KPitch p) -> s_pitch _ s1 = s_pitch _ s) /\ ((forall h, x <> KMode h) -> (forall e, x <> KScheme e) -> s_mode _ s1 = s_mode _ s)).
    { destruct x as [p|h|name|e|i]; cbn [key_child].
      - destruct (R p (or_introl eq_refl)) as [v ->]. cbn [bindr]. eexists. split; [reflexivity|]. split; [intros N; destruct (N p eq_refl)|reflexivity].
      - eexists. split; [reflexivity|]. split; [reflexivity|intros N; destruct (N h eq_refl)].
      - destruct (NR name (or_introl eq_refl)).
      - eexists. split; [reflexivity|]. split; [reflexivity|intros _ N; destruct (N e eq_refl)].
      - eauto. }
    destruct Y as (s1 & E1 & P1 & M1). rewrite E1. cbn [bindr].
    destruct (IH (fun y I => R y (or_intror I)) (fun n I => NR n (or_intror I)) s1) as (s2 & E2 & P2 & M2). exists s2. split; [exact E2|]. split.
    - intros N. rewrite P2, P1; [reflexivity|intros p ->; exact (N p (or_introl eq_refl))|intros p I; exact (N p (or_intror I))].
    - intros [N N']. rewrite M2, M1; [reflexivity|intros h ->; exact (N h (or_introl eq_refl))|intros e ->; exact (N' e (or_introl eq_refl))|].
      split; [intros h I; exact (N h (or_intror I))|intros e I; exact (N' e (or_intror I))]. }
  destruct (X (mk_st _ None None (VScope _ sc))) as (s & E & SP & SM). unfold key_signature_of. rewrite E. cbn [bindr].
  destruct H as [H|H]; [rewrite (SP H); reflexivity|rewrite (SM H)]. cbn [s_mode]. destruct (s_pitch _ s); reflexivity.
Qed.

(** A mode that is a variable is never found: there is no key if the variable exists, whatever it is, and an exception if it does not. *)
Theorem C104_variable_finding : forall kids p name sc v, arguments kids p (KRef name) -> read_node T P p = Ok v ->
  key_signature_of scope find T P kids sc = match find (VScope scope sc) name with Some _ => Ok None | None => Err TypeError end.
Proof.
  intros kids p name sc v A R. inversion A as [a p' b m c FA FB FC E1 E2 E3]; subst. unfold key_signature_of.
  rewrite key_children_app, key_children_else by assumption. cbn [bindr key_children key_child]. rewrite R. cbn [bindr].
  rewrite key_children_app, key_children_else by assumption. cbn [bindr key_children key_child s_scope s_mode s_pitch].
  destruct (find (VScope scope sc) name) as [[x sc']|]; [|reflexivity]. cbn [bindr]. rewrite key_children_else by assumption. reflexivity.
Qed.

(** Neither is there a key if the mode is empty: a list without numbers, or a name without letters. *)
Theorem C104_empty : forall kids p m sc v, arguments kids p m -> m = KMode [] \/ (exists e, m = KScheme e /\ the_list e []) ->
  read_node T P p = Ok v -> key_signature_of scope find T P kids sc = Ok None.
Proof.
  intros kids p m sc v A M R. destruct A as [a p b m c FA FB FC]. unfold key_signature_of.
  rewrite key_children_app, key_children_else by assumption. cbn [bindr key_children key_child]. rewrite R. cbn [bindr].
  rewrite key_children_app, key_children_else by assumption. cbn [bindr key_children].
  destruct M as [->|(e & -> & L)].
  - cbn [key_child bindr]. rewrite key_children_else by assumption. reflexivity.
  - destruct (the_list_ok e [] L) as (k & E & N & _). cbn [key_child bindr]. rewrite E. cbn [fold_left]. rewrite key_children_else by assumption. cbn [bindr s_pitch s_mode]. rewrite N. reflexivity.
Qed.
End Key.

(** A list of pairs, as in LilyPond's own definitions of modes, is read as the last pair only. *)
Definition num (q : Q) : sel := SE (SNumber q) [].
Definition pair (a b : Q) : sel := SE SList [num a; SE (SOther 0) []; num b].
Theorem C104_pairs_finding : forall T P p v scope find sc a b rest, read_node T P p = Ok v ->
  key_signature_of scope find T P [KPitch p; KScheme (SE (SOther 1) [SE (SOther 2) [SE SList (map (fun ab => pair (fst ab) (snd ab)) (rest ++ [(a, b)]))]])] sc
  = (let! k := make_key (note v) (alter v) (ModeList [a; b]) [] in Ok (Some k)).
Proof.
  intros T P p v scope find sc a b rest R. unfold key_signature_of. cbn [key_children key_child]. rewrite R. cbn [bindr s_mode s_pitch].
  assert (E : forall l m, fold_left (fun (_ : option key_mode) l => Some (ModeList (numbers_in l))) (flat_map own (map (fun ab => pair (fst ab) (snd ab)) (l ++ [(a, b)]))) m = Some (ModeList [a; b])).
  { intros l m. rewrite map_app, flat_map_app, fold_left_app. reflexivity. }
  rewrite lists_E. cbn [flat_map]. unfold own at 1. rewrite lists_E. cbn [flat_map app]. unfold own at 1. rewrite lists_E, !app_nil_r. rewrite fold_left_app. rewrite E. reflexivity.
Qed.

Print Assumptions C104_key_partial.
Print Assumptions C104_accidentals.
Print Assumptions C104_octave.
Print Assumptions C104_none.
Print Assumptions C104_empty.
Print Assumptions C104_variable_finding.
Print Assumptions C104_pairs_finding.

(** ** [\key d \minor] with a comment; [\key d #'(0 0 -1/2 0 0 -1/2 -1/2)] (the same), and the same list as a variable *)
Definition T0 : tables := [(txt "nederlands", (0, [(txt "c", (-1, 0, 0%Q)%Z); (txt "d", (-1, 1, 0%Q)%Z)]))].
Definition p_d : pnode := PNode (txt "d") (Some 1%Z) None.
Definition minor : sel := SE (SOther 1) [SE (SOther 2) [SE SList (map num [0; 0; -1#2; 0; 0; -1#2; -1#2]%Q)]].
Definition find0 (v : value unit) (name : str) : option (child * option unit) :=
  if list_eq_dec ascii_dec name (txt "mode") then Some (KScheme minor, None) else None.
Definition key0 (m : child) := key_signature_of unit find0 T0 default_processor [KPitch p_d; KElse 3; m] None.
Definition accs (r : res (option key_signature)) : option (list Q) := match r with Ok (Some k) => Some (map Qred (k_accidentals k)) | _ => None end.
Example C104_witness :
  arguments [KPitch p_d; KElse 3; KMode (txt "minor")] p_d (KMode (txt "minor")) /\
  read_node T0 default_processor p_d = Ok (Pitch 0 1 0) /\
  the_list minor [0; 0; -1#2; 0; 0; -1#2; -1#2]%Q /\
  accs (key0 (KMode (txt "minor"))) = Some [0; 0; 0; 0; 0; 0; -1#2]%Q /\
  accs (key0 (KScheme minor)) = Some [0; 0; 0; 0; 0; 0; -1#2]%Q /\
  mode_value unit find0 None (KRef (txt "mode")) (ModeList [0; 0; -1#2; 0; 0; -1#2; -1#2]%Q) /\
  key0 (KRef (txt "mode")) = Ok None /\ key0 (KRef (txt "nothing")) = Err TypeError.
Proof.
  assert (L : the_list minor [0; 0; -1#2; 0; 0; -1#2; -1#2]%Q).
  { apply (list_below _ [] _ []); [discriminate|constructor|constructor|]. apply (list_here _ [] _ []); [discriminate|constructor|constructor| |].
    - repeat constructor; discriminate.
    - repeat constructor. }
  split. { apply (arguments_are [] p_d [KElse 3] (KMode (txt "minor")) []); repeat constructor. eauto. }
  split; [vm_compute; reflexivity|]. split; [exact L|]. split; [vm_compute; reflexivity|]. split; [vm_compute; reflexivity|].
  split; [|split; vm_compute; reflexivity]. eapply mode_variable; [reflexivity|]. constructor; [exact L|discriminate].
Qed.
