(** Directions, styles and toggles: the property C108. *)
From Coq Require Import String Ascii List ZArith Bool Lia Sorted.
From Verif Require Import Base Build_Model Build_Props Grob_Model Grob_Spec.
Import ListNotations.
Local Open Scope string_scope.
Local Open Scope list_scope.

Lemma str_eq_ok : forall a b, str_eq a b = true <-> a = b.
Proof. intros a b. unfold str_eq. destruct (list_eq_dec ascii_dec a b); split; congruence. Qed.
Lemma dir_eq_ok : forall a b, dir_eq a b = true <-> a = b.
Proof. intros [a x] [b y]. unfold dir_eq. cbn. rewrite andb_true_iff, str_eq_ok, Z.eqb_eq. split; [intros [-> ->]; reflexivity|intros E; injection E as -> ->; auto]. Qed.
Lemma style_eq_ok : forall a b, style_eq a b = true <-> a = b.
Proof. intros [a x] [b y]. unfold style_eq. cbn. rewrite andb_true_iff, !str_eq_ok. split; [intros [-> ->]; reflexivity|intros E; injection E as -> ->; auto]. Qed.
Lemma toggle_eq_ok : forall a b, toggle_eq a b = true <-> a = b.
Proof. intros [a x] [b y]. unfold toggle_eq. cbn. rewrite andb_true_iff, str_eq_ok, Bool.eqb_true_iff. split; [intros [-> ->]; reflexivity|intros E; injection E as -> ->; auto]. Qed.

Fixpoint nodup {A} (eqb : A -> A -> bool) (l : list A) : bool := match l with [] => true | x :: r => negb (existsb (eqb x) r) && nodup eqb r end.
Lemma nodup_ok : forall {A} (eqb : A -> A -> bool), (forall a b, eqb a b = true <-> a = b) -> forall l, nodup eqb l = true -> NoDup l.
Proof.
  intros A eqb H. induction l as [|x l IH]; intros N; [constructor|]. cbn in N. apply andb_true_iff in N. destruct N as [N1 N2]. constructor; [|now apply IH].
  intros I. apply negb_true_iff in N1. assert (existsb (eqb x) l = true) by (apply existsb_exists; exists x; split; [exact I|now apply H]). congruence.
Qed.

(** *** The tables *)
Section Table.
Variable V : Type.
Variable veqb : V -> V -> bool.
Hypothesis HV : forall a b, veqb a b = true <-> a = b.
Variable m : list (str * V).
Hypothesis N1 : nodup str_eq (map fst m) = true.
Hypothesis N2 : nodup veqb (map snd m) = true.
Variable cmd : V -> str -> Prop.
Hypothesis C : Forall (fun x => cmd (snd x) (fst x)) m.
Lemma table_write : forall h s, write_head str V veqb m h = Ok s -> cmd h s /\ read_head str V str_eq m s = Ok h.
Proof.
  intros h s W. split.
  - unfold write_head in W. destruct (dict_find veqb (inverted str V veqb m) h) as [k|] eqn:F; [|discriminate]. injection W as ->.
    apply (inverted_some veqb HV) in F. rewrite Forall_forall in C. exact (C _ F).
  - eapply C55_write_read; eauto; [apply str_eq_ok|]. exact (nodup_ok str_eq str_eq_ok _ N1).
Qed.
Lemma table_read : forall h s, read_head str V str_eq m s = Ok h -> write_head str V veqb m h = Ok s.
Proof. intros h s R. eapply C55_read_write; eauto; [apply str_eq_ok|exact (nodup_ok str_eq str_eq_ok _ N1)|exact (nodup_ok veqb HV _ N2)]. Qed.
Lemma table_writes : forall h, (exists s, write_head str V veqb m h = Ok s) <-> In h (map snd m).
Proof.
  intros h. unfold write_head. destruct (dict_find veqb (inverted str V veqb m) h) as [k|] eqn:F.
  - apply (inverted_some veqb HV) in F. split; [intros _; apply in_map_iff; exists (k, h); auto|eauto].
  - split; [intros [s X]; discriminate|]. intros I. apply in_map_iff in I. destruct I as ((k & h') & E & I). cbn in E. subst h'. destruct (inverted_none veqb HV _ _ F k I).
Qed.
Lemma table_error : forall h, ~ In h (map snd m) -> write_head str V veqb m h = Err KeyError.
Proof. intros h N. destruct (write_head str V veqb m h) as [s|e] eqn:W; [destruct N; apply table_writes; eauto|]. unfold write_head in W. destruct (dict_find _ _ _); congruence. Qed.
End Table.

Lemma directions_ok : Forall (fun x : str * (str * Z) => direction_command (fst (snd x)) (snd (snd x)) (fst x)) directions.
Proof. repeat (constructor; [solve [apply command_up|apply command_neutral|apply command_down]|]). constructor. Qed.
Lemma styles_ok : Forall (fun x : str * (str * str) => style_command (fst (snd x)) (snd (snd x)) (fst x)) styles.
Proof. repeat (constructor; [solve [apply command_solid|apply command_dashed|apply command_dotted|apply command_half_solid|apply command_half_dashed]|]). constructor. Qed.
Lemma toggles_ok : Forall (fun x : str * (str * bool) => toggle_command (fst (snd x)) (snd (snd x)) (fst x)) toggles.
Proof. repeat (constructor; [solve [apply command_on|apply command_off]|]). constructor. Qed.

(** What is written is the command for the grob and the direction, and reads as that again; so is what is read. *)
Theorem C108_written : 
  (forall g d s, write_direction (g, d) = Ok s -> direction_command g d s /\ read_direction s = Ok (g, d)) /\
  (forall g x s, write_style (g, x) = Ok s -> style_command g x s /\ read_style s = Ok (g, x)) /\
  (forall p b s, write_toggle (p, b) = Ok s -> toggle_command p b s /\ read_toggle s = Ok (p, b)).
Proof.
  split; [|split].
  - intros g d s W. exact (table_write _ _ dir_eq_ok directions eq_refl (fun v s => direction_command (fst v) (snd v) s) directions_ok (g, d) s W).
  - intros g d s W. exact (table_write _ _ style_eq_ok styles eq_refl (fun v s => style_command (fst v) (snd v) s) styles_ok (g, d) s W).
  - intros g d s W. exact (table_write _ _ toggle_eq_ok toggles eq_refl (fun v s => toggle_command (fst v) (snd v) s) toggles_ok (g, d) s W).
Qed.
Print Assumptions C108_written.
Theorem C108_read :
  (forall h s, read_direction s = Ok h -> write_direction h = Ok s) /\ (forall h s, read_style s = Ok h -> write_style h = Ok s) /\
  (forall h s, read_toggle s = Ok h -> write_toggle h = Ok s).
Proof.
  split; [|split]; intros h s R.
  - exact (table_read _ _ dir_eq_ok directions eq_refl eq_refl h s R).
  - exact (table_read _ _ style_eq_ok styles eq_refl eq_refl h s R).
  - exact (table_read _ _ toggle_eq_ok toggles eq_refl eq_refl h s R).
Qed.
Print Assumptions C108_read.

(** *** Which there are *)
Lemma heads_in : forall g d, In (g, d) (map snd directions) <->
  (In g (map txt directed) /\ (d = 1 \/ d = 0 \/ d = -1)%Z) \/ (g = arrow /\ (d = 1 \/ d = -1)%Z).
Proof.
  intros g d. split.
  - intros I. cbn [directions map] in I. repeat (destruct I as [I|I]; [injection I as <- <-; vm_compute; tauto|]). destruct I.
  - intros [[I D]|[-> D]].
    + cbn [directed map In] in I. repeat (destruct I as [<-|I]; [destruct D as [->|[->| ->]]; vm_compute; tauto|]). destruct I.
    + destruct D as [->| ->]; vm_compute; tauto.
Qed.
Lemma styles_in : forall g x, In (g, x) (map snd styles) <->
  (In g (map txt styled) /\ In x (map txt ["solid"; "dashed"; "dotted"; "half_solid"; "half_dashed"])).
Proof.
  intros g x. split.
  - intros I. cbn [styles map] in I. repeat (destruct I as [I|I]; [injection I as <- <-; vm_compute; tauto|]). destruct I.
  - intros [I D]. cbn [map In] in D. cbn [styled map In] in I.
    repeat (destruct I as [<-|I]; [repeat (destruct D as [<-|D]; [vm_compute; tauto|]); destruct D|]). destruct I.
Qed.
Lemma toggles_in : forall p b, In (p, b) (map snd toggles) <-> In p (map txt toggled).
Proof.
  intros p b. change (map txt toggled) with props. unfold toggles. rewrite in_map_iff. split.
  - intros ((s & h) & E & I). cbn in E. subst h. apply in_flat_map in I. destruct I as (q & I & J). cbn in J. destruct J as [J|[J|[]]]; injection J as _ <- _; exact I.
  - intros I. exists (if b then txt "\" ++ p ++ txt "On" else txt "\" ++ p ++ txt "Off", (p, b)). split; [reflexivity|]. apply in_flat_map. exists p. split; [exact I|]. destruct b; cbn; auto.
Qed.

(** Setting an attribute of a command gives the command for the new value, if there is one; the other attribute stays. Missing for the full claim:
    other values are not refused by the attribute, writing raises a KeyError (C108_unchecked_finding). *)
Theorem C108_set_direction_partial : forall h d, (In (get_first h) (map txt directed) /\ (d = 1 \/ d = 0 \/ d = -1)%Z) \/ (get_first h = arrow /\ (d = 1 \/ d = -1)%Z) ->
  exists s, write_direction (set_second h d) = Ok s /\ direction_command (get_first h) d s.
Proof.
  intros [g d0] d H. apply heads_in in H. apply (table_writes _ _ dir_eq_ok) in H. destruct H as [s W]. exists s. split; [exact W|]. exact (proj1 (proj1 C108_written g d s W)).
Qed.
Theorem C108_set_grob_partial : forall h g, (In g (map txt directed) /\ (get_second h = 1 \/ get_second h = 0 \/ get_second h = -1)%Z) ->
  exists s, write_direction (set_first h g) = Ok s /\ direction_command g (get_second h) s.
Proof.
  intros [g0 d] g H. assert (H' := proj2 (heads_in g d) (or_introl H)). apply (table_writes _ _ dir_eq_ok) in H'. destruct H' as [s W]. exists s. split; [exact W|]. exact (proj1 (proj1 C108_written g d s W)).
Qed.
Theorem C108_set_style_partial : forall h g x, In g (map txt styled) -> In x (map txt ["solid"; "dashed"; "dotted"; "half_solid"; "half_dashed"]) ->
  exists s, write_style (set_first (set_second h x) g) = Ok s /\ style_command g x s.
Proof.
  intros [g0 d] g x I J. assert (H' := proj2 (styles_in g x) (conj I J)). apply (table_writes _ _ style_eq_ok) in H'. destruct H' as [s W]. exists s. split; [exact W|].
  exact (proj1 (proj1 (proj2 C108_written) g x s W)).
Qed.
Theorem C108_set_toggle_partial : forall h p b, In p (map txt toggled) -> exists s, write_toggle (set_first (set_second h b) p) = Ok s /\ toggle_command p b s.
Proof.
  intros [g0 d] p b I. assert (H' := proj2 (toggles_in p b) I). apply (table_writes _ _ toggle_eq_ok) in H'. destruct H' as [s W]. exists s. split; [exact W|].
  exact (proj1 (proj2 (proj2 C108_written) p b s W)).
Qed.
Print Assumptions C108_set_direction_partial.
Print Assumptions C108_set_grob_partial.
Print Assumptions C108_set_style_partial.
Print Assumptions C108_set_toggle_partial.

(** grobs: the directions of a grob, in ascending order *)
Theorem C108_grobs : forall g d, In d (grobs g) <-> exists s, write_direction (g, d) = Ok s.
Proof.
  intros g d. unfold write_direction. rewrite (table_writes _ _ dir_eq_ok). unfold grobs.
  assert (I : forall x l, In d (insert x l) <-> d = x \/ In d l).
  { intros x l. induction l as [|y l IH]; cbn; [intuition|]. destruct (x <=? y)%Z; cbn; rewrite ?IH; intuition. }
  assert (S : forall l, In d (fold_right insert [] l) <-> In d l).
  { induction l as [|x l IH]; [reflexivity|]. cbn [fold_right In]. rewrite I, IH. intuition. }
  rewrite S, in_flat_map. split.
  - intros ((s & g' & d') & J & K). cbn in K. destruct (str_eq g' g) eqn:E; [|destruct K]. apply str_eq_ok in E. subst g'. destruct K as [<-|[]]. apply in_map_iff. exists (s, (g, d')). auto.
  - intros J. apply in_map_iff in J. destruct J as ((s & h) & E & J). cbn in E. subst h. exists (s, (g, d)). split; [exact J|]. cbn. rewrite (proj2 (str_eq_ok g g) eq_refl). now left.
Qed.
Theorem C108_grobs_sorted : forall g i j, i < j -> j < List.length (grobs g) -> (nth i (grobs g) 0 <= nth j (grobs g) 0)%Z.
Proof.
  intros g. unfold grobs. generalize (flat_map (fun x : str * (str * Z) => if str_eq (fst (snd x)) g then [snd (snd x)] else []) directions). intros l.
  assert (X : Sorted.StronglySorted Z.le (fold_right insert [] l)).
  { induction l as [|x l IH]; [constructor|]. cbn [fold_right]. revert IH. generalize (fold_right insert [] l). clear l. intros l IH.
    assert (I : forall d l, In d (insert x l) -> d = x \/ In d l).
    { intros d l'. induction l' as [|y l' IH']; cbn; [intuition|]. destruct (x <=? y)%Z; cbn; intuition. }
    induction IH as [|y l SS IH' F]; [repeat constructor|]. cbn [insert]. destruct (Z.leb_spec x y) as [L|L].
    - constructor; [now constructor|]. constructor; [exact L|]. rewrite Forall_forall in *. intros z J. specialize (F z J). lia.
    - constructor; [exact IH'|]. rewrite Forall_forall in *. intros z J. apply I in J. destruct J as [->|J]; [lia|now apply F]. }
  revert X. generalize (fold_right insert [] l). clear l. intros l X. induction X as [|x l SS IH F]; intros i j L B; [cbn in B; lia|].
  destruct j as [|j]; [lia|]. cbn in B. destruct i as [|i]; cbn [nth].
  - rewrite Forall_forall in F. apply F. apply nth_In. lia.
  - apply IH; lia.
Qed.
Print Assumptions C108_grobs.
Print Assumptions C108_grobs_sorted.

(** A value that is not supported is accepted by the attribute; writing raises a KeyError. *)
Theorem C108_unchecked_finding : forall h d,
  ~ ((In (get_first h) (map txt directed) /\ (d = 1 \/ d = 0 \/ d = -1)%Z) \/ (get_first h = arrow /\ (d = 1 \/ d = -1)%Z)) ->
  get_second (set_second h d) = d /\ write_direction (set_second h d) = Err KeyError.
Proof. intros [g d0] d N. split; [reflexivity|]. apply (table_error _ _ dir_eq_ok). intros I. apply N. exact (proj1 (heads_in g d) I). Qed.
Print Assumptions C108_unchecked_finding.

Example C108_witness :
  read_direction (txt "\slurUp") = Ok (txt "Slur", 1%Z) /\ write_direction (set_second (txt "Slur", 1%Z) (-1)%Z) = Ok (txt "\slurDown") /\
  write_style (set_second (txt "Tie", txt "solid") (txt "half_dashed")) = Ok (txt "\tieHalfDashed") /\
  grobs (txt "Slur") = [-1; 0; 1]%Z /\ grobs arrow = [-1; 1]%Z /\ write_toggle (txt "cadenza", false) = Ok (txt "\cadenzaOff").
Proof. repeat split; vm_compute; reflexivity. Qed.
