(** Theorems about the commands that change durations: C115. *)
From Coq Require Import List ZArith QArith Bool Lia Lqa.
From Verif Require Import Base Duration_Model Duration_Spec Duration_Props Time_Model Time_Spec Time_Proofs Time_Props Scale_Model Scale_Spec Scale_Proofs.
Import ListNotations.
Open Scope nat_scope.

(** The length of \times a/b music, \tuplet a/b music, \scaleDurations f music and \grace music is that of the music
    alone at the same place, multiplied by a/b, b/a, f and 0.
    Missing for the full claim: negative factors; music that is directly in \simultaneous; floating point factors are
    taken as exact numbers; numbers that are not written as such (C115_unread, C115_pair_finding) and zeros
    (C115_zero_finding). *)
Theorem C115_scaled_partial : forall root p c args n i m f, nonneg root -> node_at root p = Some n -> command_node c args = Ok n -> scales_by c args i m f ->
  not_in_simultaneous root p -> same (length root p) (times f (length (put root p m) p)).
Proof. intros. eapply length_scaled; eauto. Qed.
Print Assumptions C115_scaled_partial.

(** The same for everything in the music. *)
Theorem C115_inside_partial : forall root p c args n i m f q, nonneg root -> node_at root p = Some n -> command_node c args = Ok n -> scales_by c args i m f ->
  not_in_simultaneous root p -> music_way m q -> same (length root (p ++ i :: q)) (times f (length (put root p m) (p ++ q))).
Proof. intros. eapply length_below; eauto. Qed.
Print Assumptions C115_inside_partial.

(** And positions in the music, counted from the start of the command. *)
Theorem C115_position_partial : forall root p c args n i m f q, nonneg root -> node_at root p = Some n -> command_node c args = Ok n -> scales_by c args i m f ->
  not_in_simultaneous root p -> music_way m q ->
  (exists e, position root (p ++ i :: q) false = Err e /\ position (put root p m) (p ++ q) false = Err e) \/
  exists top s d d', position root p false = Ok (top, s) /\ position root (p ++ i :: q) false = Ok (top, d') /\
    position (put root p m) (p ++ q) false = Ok (top, d) /\ (d' - s == f * (d - s))%Q.
Proof. intros. eapply position_below; eauto. Qed.
Print Assumptions C115_position_partial.

(** Every such command has a length. *)
Theorem C115_read : forall c args i m f, scales_by c args i m f -> exists n, command_node c args = Ok n.
Proof. intros c args i m f S. destruct (transform_scales _ _ _ _ _ S) as (g & T & _). unfold command_node. rewrite T. cbn. eauto. Qed.
Print Assumptions C115_read.

(** { c4 \tuplet 3/2 4 { c8 d8 \times 2/3 { c8 d8 e8 } } c4 } *)
Definition inner_args := [AFraction 2 3; ANode (MN MusicList None None [note (1#8); note (1#8); note (1#8)])].
Definition inner := match command_node Times inner_args with Ok n => n | Err _ => note 0 end.
Definition outer_music := MN MusicList None None [note (1#8); note (1#8); inner].
Definition outer_args := [AFraction 3 2; ANode (MN Duration None None []); ANode outer_music].
Definition outer := match command_node Tuplet outer_args with Ok n => n | Err _ => note 0 end.
Definition piece := MN MusicList None None [note (1#4); outer; note (1#4)].
Example C115_witness : nonneg piece /\ node_at piece [1] = Some outer /\ command_node Tuplet outer_args = Ok outer /\ scales_by Tuplet outer_args 2 outer_music (2#3) /\
  not_in_simultaneous piece [1] /\ length_is piece [1] (1#3) /\ length_is (put piece [1] outer_music) [1] (1#2) /\
  music_way outer_music [2; 1; 1] /\ length_is piece [1; 2; 2; 1; 1] (1#18) /\ length_is (put piece [1] outer_music) [1; 2; 1; 1] (1#12) /\
  position_is piece [1; 2; 2; 1; 1] false [] ((1#4) + (2#3) * (1#3)) /\ position_is (put piece [1] outer_music) [1; 2; 1; 1] false [] ((1#4) + (1#3)).
Proof.
  split; [apply nonnegb_nonneg; reflexivity|]. split; [reflexivity|]. split; [reflexivity|]. split.
  { change (2#3)%Q with (inject_Z 2 / inject_Z 3)%Q. refine (scales_written Tuplet (AFraction 3 2) _ [] [ANode (MN Duration None None [])] [] outer_music _ _ _ _); [constructor; discriminate|constructor| |constructor]. apply Forall_cons; [right; reflexivity|constructor]. }
  split. { intros q i x E N. destruct q as [|a q]; [injection N as <-; discriminate|]. destruct q; discriminate. }
  split; [values|]. split; [values|]. split; [cbn; auto|]. split; [values|]. split; [values|]. split; values.
Qed.
(** \acciaccatura { c8 } *)
Example C115_grace_witness : exists n, command_node Acciaccatura [ANode (MN MusicList None None [note (1#8)])] = Ok n /\ nonneg n /\
  scales_by Acciaccatura [ANode (MN MusicList None None [note (1#8)])] 0 (MN MusicList None None [note (1#8)]) 0 /\ length_is n [] 0.
Proof.
  eexists. split; [reflexivity|]. split; [apply nonnegb_nonneg; reflexivity|]. split; [|values]. apply (scales_grace Acciaccatura [] [] (MN MusicList None None [note (1#8)])); [cbn; auto|constructor|constructor].
Qed.
(** \scaleDurations #1/2 c4 *)
Example C115_scheme_witness : exists n, command_node ScaleDurations [AScheme [SNumber (NFraction (1#2))]; ANode (note (1#4))] = Ok n /\ nonneg n /\
  scales_by ScaleDurations [AScheme [SNumber (NFraction (1#2))]; ANode (note (1#4))] 1 (note (1#4)) (1#2) /\ length_is n [] (1#8).
Proof.
  eexists. split; [reflexivity|]. split; [apply nonnegb_nonneg; reflexivity|]. split; [|values].
  apply (scales_written ScaleDurations (AScheme [SNumber (NFraction (1#2))]) (1#2) [] [] []); [|constructor|constructor|constructor]. constructor. constructor. auto.
Qed.

(** The written durations in \shiftDurations l d music are shifted: l is added to the log and d to the number of dots, which does not get below zero.
    Missing for the full claim: more transforms around the node (C65_durable), and the limits of C08_shift_value_partial. *)
Theorem C115_shift_partial : forall root p args i n m l d q x dur s lg dt above below,
  node_at root p = Some n -> command_node ShiftDurations args = Ok n -> shifts_by args i m l d ->
  node_at root q = Some x -> music_path root q (above ++ n :: below) -> (forall y, In y (above ++ below) -> transform_of y = None) ->
  has_duration x dur s -> (dur == dotted lg dt)%Q -> (0 <= dt <= 52)%Z -> (0 <= Z.max 0 (dt + d) + (lg + l) + 3)%Z ->
  length_is root q (dotted (lg + l) (Z.max 0 (dt + d)) * s).
Proof.
  intros root p args i n m l d q x dur s lg dt above below N NC SB X MP NT HD E DT LIM.
  assert (T : transform_of n = Some (Transform l d 1)). { unfold command_node in NC. rewrite (transform_shifts _ _ _ _ _ SB) in NC. injection NC as <-. reflexivity. }
  pose proof (C65_durable root q x _ dur s X HD MP) as L.
  assert (NONE : forall ys z, (forall y, In y ys -> transform_of y = None) -> logs (ys ++ z) = logs z /\ dotcounts (ys ++ z) = dotcounts z /\ scales (ys ++ z) = scales z).
  { induction ys as [|y ys IH]; intros z H; [auto|]. destruct (IH z) as (A & B & C); [intros w I; apply H; right; exact I|]. unfold logs, dotcounts, scales in *. cbn [app fold_right]. rewrite (H y) by (left; reflexivity). auto. }
  destruct (NONE above (n :: below)) as (A & B & C); [intros y I; apply NT; apply in_app_iff; auto|]. destruct (NONE below []) as (A' & B' & C'); [intros y I; apply NT; apply in_app_iff; auto|].
  rewrite app_nil_r in A', B', C'. rewrite A, B, C in L. unfold logs, dotcounts, scales in L. cbn [fold_right] in L. rewrite T in L. fold (logs below) (dotcounts below) (scales below) in L. rewrite A', B', C' in L.
  cbn [t_log t_dotcount t_scale] in L. change (logs []) with 0%Z in L. change (dotcounts []) with 0%Z in L. change (scales []) with 1%Q in L. rewrite !Z.add_0_r in L.
  unfold transform_length, transform_apply in L. cbn [t_log t_dotcount t_scale] in L.
  destruct (negb (l =? 0)%Z || negb (d =? 0)%Z) eqn:Z0.
  - destruct (C08_shift_value_partial dur lg dt l d DT E LIM) as (w & W & WE). rewrite W in L. cbn [bindr same] in L. destruct (length root q) as [r|e] eqn:LR; [|contradiction]. exists r. split; [exact LR|]. eapply Qeq_trans; [exact L|]. rewrite WE. ring.
  - apply orb_false_iff in Z0. rewrite !negb_false_iff, !Z.eqb_eq in Z0. destruct Z0 as (-> & ->). cbn [bindr same] in L. destruct (length root q) as [r|e] eqn:LR; [|contradiction]. exists r. split; [exact LR|].
    eapply Qeq_trans; [exact L|]. rewrite E, !Z.add_0_r, Z.max_r by lia. ring.
Qed.
Print Assumptions C115_shift_partial.
(** \shiftDurations 1 1 { c4 } *)
Definition shift_args := [AInt 1; AScheme [SNumber (NInt 1)]; ANode (MN MusicList None None [note (1#4)])].
Definition shifted := match command_node ShiftDurations shift_args with Ok n => n | Err _ => note 0 end.
Example C115_shift_witness : command_node ShiftDurations shift_args = Ok shifted /\ shifts_by shift_args 2 (MN MusicList None None [note (1#4)]) 1 1 /\
  node_at shifted [2; 0] = Some (note (1#4)) /\ music_path shifted [2; 0] ([] ++ shifted :: [MN MusicList None None [note (1#4)]; note (1#4)]) /\
  has_duration (note (1#4)) (1#4) 1 /\ (1#4 == dotted 2 0)%Q /\ length_is shifted [2; 0] (3#16).
Proof.
  split; [reflexivity|]. split. { apply (shifts_written (AInt 1) (AScheme [SNumber (NInt 1)]) 1 1 [] [] [] []); constructor. }
  split; [reflexivity|]. split.
  { apply (music_path_below shifted [2] 0 (note (1#4)) (MN MusicList None None [note (1#4)]) [shifted; MN MusicList None None [note (1#4)]]); try reflexivity.
    apply (music_path_below shifted [] 2 (MN MusicList None None [note (1#4)]) shifted [shifted]); try reflexivity. apply music_path_top; [reflexivity|]. intros q i m E. destruct q; discriminate. }
  split; [split; reflexivity|]. split; [vm_compute; reflexivity|]. values.
Qed.

(** Without a number the length is that of the music. *)
Theorem C115_unread : forall root p c n l r m, nonneg root -> node_at root p = Some n -> In c [Times; Tuplet; ScaleDurations; ShiftDurations] ->
  (forall x, In x (l ++ r) -> unread x) -> command_node c (l ++ ANode m :: r) = Ok n -> not_in_simultaneous root p -> same (length root p) (length (put root p m) p).
Proof. exact length_unread. Qed.
Print Assumptions C115_unread.
(** Finding: \scaleDurations #'(2 . 3) music, as in LilyPond's manual, is not scaled; no more is a number that comes from an expression or a variable. *)
Theorem C115_pair_finding : exists n, command_node ScaleDurations [AScheme [SOther]; ANode (note (1#4))] = Ok n /\ unread (AScheme [SOther]) /\ length_is n [] (1#4).
Proof. eexists. split; [reflexivity|]. split; [discriminate|values]. Qed.
Print Assumptions C115_pair_finding.
(** Finding: a fraction with a zero can be written, and asking for a length in it raises an exception. *)
Theorem C115_zero_finding : forall c a b l r, Forall inert l ->
  command_node c (l ++ AFraction a b :: r) = Err ZeroDivisionError <->
  (c = Times /\ b = 0%Z) \/ (c = Tuplet /\ (a = 0%Z \/ b = 0%Z)) \/ (c = ScaleDurations /\ b = 0%Z).
Proof. exact zero_fraction. Qed.
Print Assumptions C115_zero_finding.
