(** Assigning to slices through a range, seen on the whole range (property C47). *)
From Coq Require Import List ZArith Bool PeanoNat Lia ZifyBool ZifyNat.
From Verif Require Import Base Node_Model Node_Spec Node_Nav Range_Model Range_Spec Range_Proofs Range_Machine Range_Extract Range_Member Rangenav_Model Rangenav_Spec Rangenav_Proofs Rangenav_Walk Rangenav_Props Rangenav_Setter.
Import ListNotations.

Lemma carried_exists q a z m s : exists s2, carried q a z m s s2.
Proof. destruct s as [p|]; [destruct (carried_some q a z m p) as [p2 H]; eauto|]. exists None. split; [discriminate|reflexivity]. Qed.

Lemma cur_ancestor t s e p b r : cur t s e p b r -> ancestor r = t.
Proof.
  intros (q & n & s' & e' & L & below & -> & IN & G & N & _). unfold ancestor, base_level. cbn [r_top r_below]. clear - IN N G. revert L N G.
  induction IN as [|q n s' e' below L' i c IN IH G' N' IX C W]; intros L N G; [exact N|]. specialize (IH L' N' G'). cbn [List.last]. destruct below as [|b below]; [exact IH|]. 
  assert (Y : forall (l : list level) x d d', List.last (x :: l) d = List.last (x :: l) d') by (induction l as [|y l IHl]; intros x d d'; [reflexivity|]; exact (IHl y d d')). now rewrite (Y below b L L').
Qed.

(** Assigning nodes to a slice of the children on the level of a range that was used in any way (also edited in this way), when the slice keeps clear of the boundaries
    and of the current node: the tree has the new nodes in place of the old ones and is the same elsewhere; the boundaries and the current position are at the same nodes as
    before; and the range can be used on like any used range (property C117).
    Missing for the full claim: slices with a child at a boundary or the current child (C47_current_finding, C47_end_finding, C47_start_finding). *)
Theorem C47_range_partial : forall t s e r p b n a z v, used t s e r -> stands r p b -> reach t (level_path p b) n -> clear (level_path p b) n s e p a z ->
  exists t' s' e' p', let r' := set_range_slice r (Some (Z.of_nat a)) (Some (Z.of_nat z)) v in
    replaced (sliced n a z v) t (level_path p b) t' /\
    carried (level_path p b) a z (List.length v) s s' /\ carried (level_path p b) a z (List.length v) e e' /\ carried (level_path p b) a z (List.length v) (Some p) (Some p') /\
    used t' s' e' r' /\ stands r' p' b /\ ancestor r' = t' /\ r_start_trail r' = s' /\ r_end_trail r' = e'.
Proof.
  intros t s e r p b n a z v U ST R CL. destruct (used_all t s e r U) as (VS & VE & W & _). destruct (used_at t s e r p b U ST) as (_ & _ & C).
  destruct (carried_exists (level_path p b) a z (List.length v) s) as [s2 CS]. destruct (carried_exists (level_path p b) a z (List.length v) e) as [e2 CE]. destruct (carried_some (level_path p b) a z (List.length v) p) as [p2 CP].
  destruct (cur_set_slice t s e p b r n a z v VS VE C W R CL s2 e2 p2 CS CE CP) as (t2 & RP & V1 & V2 & C' & W'). exists t2, s2, e2, p2. cbn zeta. split; [exact RP|]. split; [exact CS|]. split; [exact CE|]. split; [exact CP|].
  split; [eapply used_slice; eauto|]. split; [exact (cur_stands t2 s2 e2 p2 b _ V1 V2 C')|]. split; [exact (cur_ancestor _ _ _ _ _ _ C')|]. split; [exact (proj1 W')|exact (proj1 (proj2 W'))].
Qed.
Print Assumptions C47_range_partial.

(** Assigning a node to one index, on the level of a used range: the node is put in the tree at that place, and nothing else; a boundary that was at or in the old node is
    the new one then; the range stands where it stood, and can be used on.  An index that is too large raises an IndexError. *)
Theorem C47_range_item : forall t s e r p b n i v, used t s e r -> stands r p b -> reach t (level_path p b) n ->
  (List.length (children n) <= i -> set_range_item r (Z.of_nat i) v = Err IndexError) /\
  (i < List.length (children n) -> exists r' t' s' e', set_range_item r (Z.of_nat i) v = Ok r' /\ replaced v t (level_path p b ++ [i]) t' /\
     retracted (level_path p b ++ [i]) s s' /\ retracted (level_path p b ++ [i]) e e' /\
     used t' s' e' r' /\ stands r' p b /\ ancestor r' = t' /\ r_start_trail r' = s' /\ r_end_trail r' = e').
Proof.
  intros t s e r p b n i v U ST R. destruct (used_all t s e r U) as (VS & VE & W & _). destruct (used_at t s e r p b U ST) as (_ & _ & C). destruct (cur_set_item t s e p b r i v n VS VE C W R) as [A B]. split; [exact A|].
  intros I. destruct (B I) as (r' & t2 & s2 & e2 & X & RP & RS & RE & V1 & V2 & C' & W'). exists r', t2, s2, e2. split; [exact X|]. split; [exact RP|]. split; [exact RS|]. split; [exact RE|]. split; [eapply used_item; eauto|].
  split; [exact (cur_stands t2 s2 e2 p b _ V1 V2 C')|]. split; [exact (cur_ancestor _ _ _ _ _ _ C')|]. split; [exact (proj1 W')|exact (proj1 (proj2 W'))].
Qed.
Print Assumptions C47_range_item.

(** ** What the range comprises then *)
Lemma shift_inj a z m j k : a <= z -> j < a \/ z <= j -> k < a \/ z <= k -> shift a z m j = shift a z m k -> j = k.
Proof. unfold shift. intros H J K. destruct (j <? a) eqn:?; destruct (k <? a) eqn:?; lia. Qed.
Lemma shift_lt a z m j k : a <= z -> j < a \/ z <= j -> k < a \/ z <= k -> (shift a z m j < shift a z m k <-> j < k).
Proof. unfold shift. intros H J K. destruct (j <? a) eqn:?; destruct (k <? a) eqn:?; lia. Qed.

Lemma upto_app2 q x y : upto (q ++ x) (q ++ y) <-> upto x y.
Proof. induction q as [|i q IH]; [reflexivity|]. cbn [app]. rewrite upto_cons, IH. split; [intros [L|[_ H]]; [lia|exact H]|auto]. Qed.
Lemma above_app2 q x y : above (q ++ x) (q ++ y) <-> above x y.
Proof. induction q as [|i q IH]; [reflexivity|]. cbn [app]. rewrite above_cons2, IH. tauto. Qed.
Lemma upto_other_l : forall q s y y', (forall x, s <> q ++ x) -> (upto s (q ++ y) <-> upto s (q ++ y')).
Proof.
  induction q as [|i q IH]; intros s y y' H; [now elim (H s)|]. destruct s as [|j s]; [split; intros _; apply upto_nil|]. cbn [app]. rewrite !upto_cons. destruct (Nat.eq_dec j i) as [->|N]; [|lia]. rewrite (IH s y y'); [tauto|]. intros x ->. now apply (H x).
Qed.
Lemma upto_other_r : forall q s y y', (forall x, s <> q ++ x) -> (upto (q ++ y) s <-> upto (q ++ y') s).
Proof.
  induction q as [|i q IH]; intros s y y' H; [now elim (H s)|]. destruct s as [|j s]; [rewrite !upto_nil_r; cbn; split; discriminate|]. cbn [app]. rewrite !upto_cons. destruct (Nat.eq_dec j i) as [->|N]; [|lia]. rewrite (IH s y y'); [tauto|]. intros x ->. now apply (H x).
Qed.
Lemma above_other : forall q s y, (forall x, s <> q ++ x) -> ~ above (q ++ y) s.
Proof. intros q s y H (x & l & E). rewrite <- app_assoc in E. now apply (H (y ++ x :: l)). Qed.

(** Paths through the same child, and the start or end through a child that remains. *)
Lemma order_shift a z m k x j y : a <= z -> j < a \/ z <= j -> k < a \/ z <= k ->
  (upto (shift a z m k :: x) (shift a z m j :: y) <-> upto (k :: x) (j :: y)) /\ (above (shift a z m k :: x) (shift a z m j :: y) <-> above (k :: x) (j :: y)).
Proof.
  intros H J K. rewrite !upto_cons, !above_cons2, (shift_lt a z m k j H K J). assert (E : shift a z m k = shift a z m j <-> k = j) by (split; [now apply shift_inj|now intros ->]). rewrite E. tauto.
Qed.

Lemma prefix_cases (q p : list nat) : (exists k x, p = q ++ k :: x) \/ p = q \/ forall x, p <> q ++ x.
Proof. destruct (prefix_dec q p) as [[[|k x] ->]|N]; [right; left; now rewrite app_nil_r|left; eauto|auto]. Qed.

Lemma carried_start q a z m s s2 y y2 : a <= z -> not_through q a z s -> not_through q a z (Some y) -> carried q a z m s s2 -> carried q a z m (Some y) (Some y2) ->
  ((match s2 with Some s => upto s y2 \/ above y2 s | None => True end) <-> (match s with Some s => upto s y \/ above y s | None => True end)).
Proof.
  intros H NS NY CS CY. destruct (carried_cases _ _ _ _ _ _ CS) as [(k & x & -> & ->)|[N ->]]; destruct (carried_cases _ _ _ _ _ _ CY) as [(j & w & [= ->] & [= ->])|[NJ [= ->]]].
  - rewrite !upto_app2, !above_app2. destruct (order_shift a z m k x j w H (NY j w eq_refl) (NS k x eq_refl)) as [-> _]. destruct (order_shift a z m j w k x H (NS k x eq_refl) (NY j w eq_refl)) as [_ ->]. reflexivity.
  - destruct (prefix_cases q y) as [(j & w & ->)|[->|NP]]; [now elim (NJ j w)| |].
    + assert (A : forall i l, above q (q ++ i :: l)) by (intros i l; now exists i, l). split; intros _; right; apply A.
    + rewrite (upto_other_r q y _ (k :: x) NP). split; (intros [U|A]; [now left|right]); [|].
      * destruct A as (i & l & E). assert (Q : exists w, q = y ++ w).
        { clear - E NP. revert y E NP. induction q as [|a0 q IH]; intros y E NP; [elim (NP y); reflexivity|]. destruct y as [|b y]; [now exists (a0 :: q)|]. cbn in E. injection E as -> E. destruct (IH y E) as [w ->]; [intros x0 ->; now apply (NP x0)|now exists w]. }
        destruct Q as [w ->]. destruct w as [|c w]; [elim (NP []); now rewrite !app_nil_r|]. exists c, (w ++ k :: x). now rewrite <- app_assoc.
      * destruct A as (i & l & E). assert (Q : exists w, q = y ++ w).
        { clear - E NP. revert y E NP. induction q as [|a0 q IH]; intros y E NP; [elim (NP y); reflexivity|]. destruct y as [|b y]; [now exists (a0 :: q)|]. cbn in E. injection E as -> E. destruct (IH y E) as [w ->]; [intros x0 ->; now apply (NP x0)|now exists w]. }
        destruct Q as [w ->]. destruct w as [|c w]; [elim (NP []); now rewrite !app_nil_r|]. exists c, (w ++ shift a z m k :: x). now rewrite <- app_assoc.
  - destruct s as [s|]; [|tauto]. destruct (prefix_cases q s) as [(k & x & ->)|[->|NP]]; [now elim (N k x)| |].
    + assert (A : forall l, upto q (q ++ l)) by (intros l; apply upto_app). split; intros _; left; apply A.
    + rewrite (upto_other_l q s _ (j :: w) NP). split; (intros [U|A]; [now left|]); exfalso; eapply above_other; eauto.
  - reflexivity.
Qed.
Lemma carried_end q a z m e e2 y y2 : a <= z -> not_through q a z e -> not_through q a z (Some y) -> carried q a z m e e2 -> carried q a z m (Some y) (Some y2) ->
  ((match e2 with Some e => upto y2 e | None => True end) <-> (match e with Some e => upto y e | None => True end)).
Proof.
  intros H NS NY CS CY. destruct (carried_cases _ _ _ _ _ _ CS) as [(k & x & -> & ->)|[N ->]]; destruct (carried_cases _ _ _ _ _ _ CY) as [(j & w & [= ->] & [= ->])|[NJ [= ->]]].
  - rewrite !upto_app2. now destruct (order_shift a z m j w k x H (NS k x eq_refl) (NY j w eq_refl)) as [-> _].
  - destruct (prefix_cases q y) as [(j & w & ->)|[->|NP]]; [now elim (NJ j w)| |].
    + split; intros _; apply upto_app.
    + now rewrite (upto_other_l q y _ (k :: x) NP).
  - destruct e as [e|]; [|tauto]. destruct (prefix_cases q e) as [(k & x & ->)|[->|NP]]; [now elim (N k x)| |].
    + rewrite <- (app_nil_r q) at 2 4. rewrite !upto_app2, !upto_nil_r. split; discriminate.
    + now rewrite (upto_other_r q e _ (j :: w) NP).
  - reflexivity.
Qed.

Lemma replaced_reach v t q t' : replaced v t q t' -> reach t' q v.
Proof. intros H. induction H as [t|n l c r q c' H IH]; [constructor|]. econstructor; [|exact IH]. now rewrite nth_error_app2, Nat.sub_diag by lia. Qed.

(** The range comprises the same nodes as before (all that is not in the children that are replaced, and is at its new place now), and the new nodes and everything below
    them if they are between the boundaries. *)
Theorem C47_range_view : forall t s e r p b n a z v t' s' e', used t s e r -> stands r p b -> reach t (level_path p b) n -> clear (level_path p b) n s e p a z ->
  replaced (sliced n a z v) t (level_path p b) t' -> carried (level_path p b) a z (List.length v) s s' -> carried (level_path p b) a z (List.length v) e e' ->
  (forall x x', not_through (level_path p b) a z (Some x) -> carried (level_path p b) a z (List.length v) (Some x) (Some x') -> (in_view t' s' e' x' <-> in_view t s e x)) /\
  (forall j c y, nth_error v j = Some c -> (in_view t' s' e' (level_path p b ++ (a + j) :: y) <->
     exists_at c y /\ (forall k x, s = Some (level_path p b ++ k :: x) -> k < a) /\ (forall k x, e = Some (level_path p b ++ k :: x) -> z <= k) /\ e <> Some (level_path p b))).
Proof.
  intros t s e r p b n a z v t' s' e' U ST R CL RP CS CE. destruct (used_at t s e r p b U ST) as (VS & VE & C). set (q := level_path p b) in *. destruct CL as [C1 C2 C3 C4 C5 C6].
  assert (RQ : reached s e q).
  { destruct C as (q1 & n1 & s1 & e1 & L & below & -> & IN & G & N & P). assert (LP : q = q1) by (unfold q, level_path; destruct b; [destruct P as [-> _]; reflexivity|destruct P as (i & -> & _); now rewrite removelast_last]). rewrite LP. now apply (inside_facts t s e q1 n1 s1 e1 below VS VE IN). }
  clearbody q. pose proof (replaced_reach _ _ _ _ RP) as R'. destruct (replaced_exists _ _ _ _ RP) as [X1 X2]. split.
  - intros x x' NX CX. unfold in_view, reached. rewrite (carried_start q a z _ s s' x x' (proj1 C1) C2 NX CS CX), (carried_end q a z _ e e' x x' (proj1 C1) C4 NX CE CX).
    enough (EX : exists_at t' x' <-> exists_at t x) by (rewrite EX; tauto). destruct (carried_cases _ _ _ _ _ _ CX) as [(k & w & [= ->] & [= ->])|[NO [= ->]]].
    + rewrite X1, (exists_app t q n _ R). pose proof (sliced_nth n a z v k C1 (NX k w eq_refl)) as S. destruct (sliced n a z v) as [i ts], n as [i' ts']. cbn [children] in S. rewrite !exists_cons, S. reflexivity.
    + apply X2. intros (k & w & ->). now apply (NO k w).
  - intros j c y J. unfold in_view. rewrite X1. assert (LJ : j < List.length v) by (apply nth_error_Some; congruence).
    assert (S : nth_error (children (sliced n a z v)) (a + j) = Some c).
    { rewrite sliced_children. unfold splice. rewrite nth_error_app2; rewrite firstn_length_le by lia; [|lia]. replace (a + j - a) with j by lia. now rewrite nth_error_app1 by lia. }
    assert (EX : exists_at (sliced n a z v) (a + j :: y) <-> exists_at c y) by (destruct (sliced n a z v) as [i ts]; cbn [children] in S; rewrite exists_cons, S; split; [intros (d & [= <-] & D); exact D|eauto]). rewrite EX.
    enough (RE : reached s' e' (q ++ a + j :: y) <-> (forall k x, s = Some (q ++ k :: x) -> k < a) /\ (forall k x, e = Some (q ++ k :: x) -> z <= k) /\ e <> Some q) by (rewrite RE; tauto). destruct RQ as [RS RE]. unfold reached.
    assert (A1 : (match s' with Some s => upto s (q ++ a + j :: y) \/ above (q ++ a + j :: y) s | None => True end) <-> (forall k x, s = Some (q ++ k :: x) -> k < a)).
    { destruct (carried_cases _ _ _ _ _ _ CS) as [(k & x & -> & ->)|[N ->]].
      - rewrite upto_app2, above_app2, upto_cons, above_cons2. pose proof (C2 k x eq_refl) as K. assert (SH : k < a -> shift a z (List.length v) k < a) by (unfold shift; destruct (k <? a) eqn:?; lia). assert (SG : z <= k -> a + List.length v <= shift a z (List.length v) k) by (unfold shift; destruct (k <? a) eqn:?; lia).
        split; [intros Q k0 x0 [= E0]; apply app_inv_head in E0; injection E0 as -> ->; destruct K as [K|K]; [exact K|exfalso; specialize (SG K); destruct Q as [[?|[? _]]|[? _]]; lia]|]. intros Q. specialize (Q k x eq_refl). specialize (SH Q). left. left. lia.
      - split; [intros _ k x E0; now elim (N k x)|]. intros _. destruct s as [s|]; [|exact Logic.I]. destruct (prefix_cases q s) as [(k & x & ->)|[->|NP]]; [now elim (N k x)|left; apply upto_app|]. left. destruct RS as [RS|RS]; [|exfalso; destruct RS as (i & l & ->); now apply (NP (i :: l))].
        rewrite <- (app_nil_r q) in RS. now apply (upto_other_l q s [] _ NP). }
    assert (A2 : (match e' with Some e => upto (q ++ a + j :: y) e | None => True end) <-> (forall k x, e = Some (q ++ k :: x) -> z <= k) /\ e <> Some q).
    { destruct (carried_cases _ _ _ _ _ _ CE) as [(k & x & -> & ->)|[N ->]].
      - rewrite upto_app2, upto_cons. pose proof (C4 k x eq_refl) as K. assert (SH : k < a -> shift a z (List.length v) k < a) by (unfold shift; destruct (k <? a) eqn:?; lia). assert (SG : z <= k -> a + List.length v <= shift a z (List.length v) k) by (unfold shift; destruct (k <? a) eqn:?; lia).
        split.
        + intros Q. split; [|intros [= E0]; rewrite <- (app_nil_r q) in E0 at 2; apply app_inv_head in E0; discriminate]. intros k0 x0 [= E0]; apply app_inv_head in E0; injection E0 as -> ->; destruct K as [K|K]; [exfalso; specialize (SH K); destruct Q as [?|[? _]]; lia|exact K].
        + intros [Q _]. specialize (Q k x eq_refl). specialize (SG Q). left. lia.
      - destruct e as [e|]; [|split; [intros _; split; [intros k x E0; discriminate|discriminate]|auto]]. destruct (prefix_cases q e) as [(k & x & ->)|[->|NP]]; [now elim (N k x)| |].
        + rewrite <- (app_nil_r q) at 2. rewrite upto_app2, upto_nil_r. split; [discriminate|intros [_ Q]; now elim Q].
        + split; [intros _; split; [intros k x E0; now elim (N k x)|intros [= ->]; elim (NP []); now rewrite app_nil_r]|]. intros _. rewrite <- (app_nil_r q) in RE. now apply (upto_other_r q e [] _ NP). }
    rewrite A1, A2. tauto.
Qed.
Print Assumptions C47_range_view.

(** ** In the document of Rangenav_Props: in the range from 3 to 8, standing at 6, nodes are inserted between 6 and 8, and the node after 8 is removed *)
Example C47_range_witness : used walked (Some [0; 1]) (Some [1; 1]) r1 /\ stands r1 [1; 0] false /\ reach walked [1] (T 5 [T 6 [T 7 []]; T 8 []; T 9 []]) /\
  clear [1] (T 5 [T 6 [T 7 []]; T 8 []; T 9 []]) (Some [0; 1]) (Some [1; 1]) [1; 0] 1 1 /\ 
  yielded (walk_range 20 false (fun _ => false) None r1) = [8] /\
  yielded (walk_range 20 false (fun _ => false) None (set_range_slice r1 (Some 1%Z) (Some 1%Z) [T 31 [T 32 []]; T 33 []])) = [31; 32; 33; 8] /\
  ancestor (set_range_slice r1 (Some 1%Z) (Some 1%Z) [T 31 [T 32 []]; T 33 []]) = T 0 [T 1 [T 2 []; T 3 []; T 4 []]; T 5 [T 6 [T 7 []]; T 31 [T 32 []]; T 33 []; T 8 []; T 9 []]; T 10 []] /\
  r_end_trail (set_range_slice r1 (Some 1%Z) (Some 1%Z) [T 31 [T 32 []]; T 33 []]) = Some [1; 3] /\
  yielded (walk_range 20 false (fun _ => false) None (set_range_slice r1 (Some 2%Z) (Some 3%Z) [])) = [8].
Proof.
  split; [exact r1_used|]. split; [split; vm_compute; reflexivity|]. split; [repeat (econstructor; [reflexivity|]); constructor|]. split.
  - split; [cbn; lia| |intros N; lia| |intros N; cbn; lia|]; intros k x [= E]; lia.
  - repeat split; vm_compute; reflexivity.
Qed.
Example C47_range_item_witness : exists r', stands r1 [1; 0] false /\ set_range_item r1 1 (T 31 [T 32 []]) = Ok r' /\ yielded (walk_range 20 false (fun _ => false) None r') = [31] /\
  set_range_item r1 3 (T 31 []) = Err IndexError /\ yielded (walk_range 20 false (fun _ => false) None r1) = [8].
Proof. eexists. split; [split; vm_compute; reflexivity|]. repeat split; vm_compute; reflexivity. Qed.

(** Finding: with a negative index a boundary inside the old node is not moved: in the range up to 7 (inside 6, the only child of 5) the range then ends at a node that does not
    exist, and the end node can not be found. *)
Theorem C47_negative_finding : let t := T 0 [T 5 [T 6 [T 7 []]]] in
  exists r r' r'', new_range t None (Some [0; 0; 0]) = Ok r /\ set_range_item r 0 (T 30 []) = Ok r' /\ set_range_item r (-1) (T 30 []) = Ok r'' /\ ancestor r' = ancestor r'' /\
    r_end_trail r' = Some [0] /\ end_node r' = Ok (Some (T 30 [])) /\ r_end_trail r'' = Some [0; 0; 0] /\ end_node r'' = Err IndexError.
Proof. eexists. eexists. eexists. repeat split. Qed.
Print Assumptions C47_negative_finding.
