(** The listings of a range (property C120). *)
From Coq Require Import List ZArith Bool PeanoNat Sorting.Sorted Lia.
From Verif Require Import Base Heads_Model Node_Model Node_Spec Node_Nav Node_Props Range_Model Range_Spec Range_Proofs Range_Machine Range_Extract Range_Member Rangenav_Model Rangenav_Spec Rangenav_Proofs Rangelist_Model Rangelist_Spec.
Import ListNotations.
Open Scope nat_scope.

(** ** Before and after the range *)

Lemma three p q : p = q \/ above p q \/ above q p \/ left_of p q \/ left_of q p.
Proof. destruct (upto_total p q) as [[->|[A|A]]|[->|[A|A]]]; auto. Qed.
Lemma not_early s p : reached s None p <-> ~ early s p.
Proof.
  unfold reached, early. split.
  - intros [H _] (s0 & -> & L). destruct H as [[->|[A|A]]|A].
    + now apply left_of_irrefl in L.
    + destruct A as (x & r & ->). now apply left_of_not_prefix in L.
    + apply (left_of_irrefl p). eapply left_of_trans; eassumption.
    + destruct A as (x & r & ->). now apply left_of_not_prefix in L.
  - intros N. split; [|exact I]. destruct s as [s0|]; [|exact I]. destruct (three s0 p) as [->|[A|[A|[A|A]]]]; [left; now left|left; right; now left|now right|left; right; now right|]. exfalso. apply N. eauto.
Qed.
Lemma not_late e p : reached None e p <-> ~ late e p.
Proof.
  unfold reached, late. split.
  - intros [_ H] (e0 & -> & B). assert (p = e0) by (apply upto_antisym; [exact H|now right]). subst. now apply before_irrefl in B.
  - intros N. split; [exact I|]. destruct e as [e0|]; [|exact I]. destruct (upto_total p e0) as [U|[->|U]]; [exact U|now left|]. exfalso. apply N. eauto.
Qed.

Lemma inners_none q : inners None q = None. Proof. induction q as [|i q IH]; [reflexivity|exact IH]. Qed.
Lemma reached_split s e p : reached s e p <-> reached s None p /\ reached None e p. Proof. unfold reached. tauto. Qed.

(** ** The boundaries of a level *)

Lemma start_side L s e : good L s e -> (start_in_range L = true <-> forall x, exists_at (l_node L) x -> reached s None x).
Proof.
  intros G. unfold start_in_range. pose proof (g_start L s e G) as K. unfold keeps_start in K. pose proof (g_vs L s e G) as VS. destruct (truthy (l_start_trail L)) as [st|].
  - destruct K as [-> _]. rewrite negb_true_iff, (start_zero _ (l_node L) VS). unfold reached. split; [intros H x X; split; [exact (H x X)|exact I]|intros H x X; now apply H].
  - split; [|reflexivity]. intros _ q _. split; [|exact I]. destruct K as [->| ->]; [exact I|left; apply upto_nil].
Qed.
Lemma end_side L s e : good L s e -> exists b, end_in_range L = Ok b /\ (b = true <-> forall x, exists_at (l_node L) x -> reached None e x).
Proof.
  intros G. unfold end_in_range. pose proof (g_end L s e G) as K. unfold keeps_end in K. pose proof (g_ve L s e G) as VE. unfold reached. destruct (l_end_trail L) as [et|]; cbn [option_map] in K; subst e.
  - destruct (follow_end_spec _ (l_node L) VE) as (b & E & H). exists b. split; [exact E|]. rewrite H. split; [intros X x Y; split; [exact I|now apply X]|intros X x Y; now apply X].
  - exists true. split; [reflexivity|]. split; auto.
Qed.

Section At.
Variables (t : tree) (s e : option (list nat)) (q : list nat) (n : tree).
Hypothesis R : reach t q n.
Hypothesis RE : reached s e q.

Lemma whole_start L e' : good L (inners s q) e' -> l_node L = n -> (start_in_range L = true <-> throughout t q (fun x => ~ early s x)).
Proof.
  intros G N. rewrite (start_side L _ _ G), N. unfold throughout. apply reached_split in RE as [RS _].
  split; intros H x X; [rewrite <- not_early; apply (reached_inners s None q x t X RS); rewrite inners_none; apply H; now apply (exists_app t q n x R)|].
  assert (X' := proj2 (exists_app t q n x R) X). pose proof (proj1 (reached_inners s None q x t X' RS) (proj2 (not_early _ _) (H x X'))) as Y. now rewrite inners_none in Y.
Qed.
Lemma whole_end L s' : good L s' (inners e q) -> l_node L = n -> exists b, end_in_range L = Ok b /\ (b = true <-> throughout t q (fun x => ~ late e x)).
Proof.
  intros G N. destruct (end_side L _ _ G) as (b & E & H). exists b. split; [exact E|]. rewrite H, N. unfold throughout. apply reached_split in RE as [_ RS].
  split; intros K x X; [rewrite <- not_late; apply (reached_inners None e q x t X RS); rewrite inners_none; apply K; now apply (exists_app t q n x R)|].
  assert (X' := proj2 (exists_app t q n x R) X). pose proof (proj1 (reached_inners None e q x t X' RS) (proj2 (not_late _ _) (K x X'))) as Y. now rewrite inners_none in Y.
Qed.
End At.

Lemma mapr_forall2 {A B} (P : A -> B -> Prop) f (l : list A) : (forall x, In x l -> exists y, f x = Ok y /\ P x y) -> exists ys, mapr f l = Ok ys /\ Forall2 P l ys.
Proof.
  induction l as [|x l IH]; intros H; [exists []; split; [reflexivity|constructor]|]. destruct (H x (or_introl eq_refl)) as (y & E & PY). destruct IH as (ys & E' & F); [intros z Z; apply H; now right|].
  exists (y :: ys). cbn [mapr]. rewrite E. cbn [bindr]. rewrite E'. split; [reflexivity|now constructor].
Qed.
Lemma mapr_map {A B C} (f : B -> res C) (g : A -> B) l : mapr f (map g l) = mapr (fun x => f (g x)) l.
Proof. induction l as [|x l IH]; [reflexivity|]. cbn [map mapr]. now rewrite IH. Qed.

Lemma mapr_ext {A B} (f g : A -> res B) l : (forall x, f x = g x) -> mapr f l = mapr g l.
Proof. intros H. induction l as [|x l IH]; [reflexivity|]. cbn [mapr]. now rewrite H, IH. Qed.
Lemma seq_from m : forall a, seq a m = map (Nat.add a) (seq 0 m).
Proof. induction m as [|m IH]; intros a; [reflexivity|]. cbn [seq map]. rewrite Nat.add_0_r. f_equal. rewrite IH, (IH 1), map_map. apply map_ext. intros x. lia. Qed.

(** ls() shows the node whose children are iterated over; then a line if something of it is before the range; the children that
    are in the range, in order, with their indices, each marked if not everything below it is in the range, and the current one with an
    arrow (or, if there is none, why); and a line if something is after the range, with the number of children that are after it. *)
Theorem C120_ls : forall t s e r p b, used t s e r -> stands r p b ->
  exists m top body bottom, reach t (level_path p b) m /\ range_ls r = Ok (Head (tid m) :: top ++ body ++ bottom) /\
    top_for t s (level_path p b) top /\ body_for t s e (level_path p b) p body /\ bottom_for t e (level_path p b) bottom.
Proof.
  intros t s e r p b U ST. destruct (used_at t s e r p b U ST) as (VS & VE & C). destruct C as (q & n & s' & e' & L & below & -> & IN & G & N & P). destruct (inside_facts t s e q n s' e' below VS VE IN) as (R & S1 & E1 & RE & V1 & V2 & LN & TR).
  assert (LP : level_path p b = q) by (unfold level_path; destruct b; [destruct P as [-> _]; reflexivity|destruct P as (i & -> & _); now rewrite removelast_last]). rewrite LP.
  subst s' e'. pose proof (whole_start t s e q n R RE L _ G N) as WS. destruct (whole_end t s e q n R RE L _ G N) as (we & EE & WE).
  pose proof (g_lo _ _ _ G) as LO. pose proof (g_hi _ _ _ G) as HI. set (len := List.length (children n)) in *. assert (LEN : List.length (children (l_node L)) = len) by (now rewrite N). rewrite LEN in HI.
  assert (KID : forall j, exists_at t (q ++ [j]) <-> j < len).
  { intros j. rewrite (exists_app t q n [j] R). destruct n as [k ts]. rewrite exists_cons. cbn [children] in len. split; [intros (c & E & _); apply nth_error_Some; congruence|]. intros J. destruct (nth_error ts j) as [c|] eqn:E; [|apply nth_error_None in E; lia]. exists c. split; [reflexivity|]. exists c. constructor. }
  assert (HL : (hi (inners e q) len <= Z.of_nat len - 1)%Z \/ inners e q <> None) by (destruct (inners e q); [right; discriminate|left; cbn; lia]).
  assert (HB : (-1 <= l_end L <= Z.of_nat len - 1)%Z). { rewrite HI. destruct n as [k ts]. pose proof (valid_hi k ts _ V2) as H. cbn [children] in len. fold len in H. pose proof (hi_low (inners e q) len). lia. }
  assert (VIEW : forall j, in_view t s e (q ++ [j]) <-> (l_start L <= Z.of_nat j <= l_end L)%Z).
  { intros j. rewrite (within_view t s e q n _ _ j R eq_refl eq_refl RE V2). fold len. unfold within. rewrite LO, HI. lia. }
  assert (LATE : forall j, (exists_at t (q ++ [j]) /\ late e (q ++ [j])) <-> (l_end L < Z.of_nat j < Z.of_nat len)%Z).
  { intros j. rewrite KID. assert (RN : reached None e q) by (now apply reached_split in RE as [_ ?]). pose proof (within_view t None e q n None (inners e q) j R (eq_sym (inners_none q)) eq_refl RN V2) as W. fold len in W. unfold in_view, within in W. cbn [lo] in W. rewrite <- HI, KID, not_late in W.
    split; [intros [J LT]; destruct (Z.of_nat j <=? l_end L)%Z eqn:Q; [|lia]; exfalso; destruct W as [_ W]; specialize (W ltac:(now destruct j)); tauto|]. intros J. split; [lia|].
    destruct e as [e0|]; [|rewrite inners_none in HI; cbn [hi] in HI; lia]. exists e0. split; [reflexivity|]. destruct (upto_total (q ++ [j]) e0) as [U0|[->|U0]]; [exfalso| |exact U0].
    - assert (NL : ~ late (Some e0) (q ++ [j])) by (rewrite <- not_late; split; [exact I|exact U0]). assert (JJ : j < len) by lia. pose proof (proj1 W (conj JJ NL)) as W1. apply andb_true_iff in W1. lia.
    - exfalso. assert (NL : ~ late (Some (q ++ [j])) (q ++ [j])) by (rewrite <- not_late; split; [exact I|now left]). assert (JJ : j < len) by lia. pose proof (proj1 W (conj JJ NL)) as W1. apply andb_true_iff in W1. lia. }
  assert (BODY : exists body, ls_body L = Ok body /\ body_for t s e q p body).
  { unfold ls_body. destruct (Z.leb_spec (l_start L) (l_end L)) as [LE|GT].
    - rewrite mapr_map. set (js := seq (lo (inners s q)) (Z.to_nat (l_end L + 1 - l_start L))).
      destruct (mapr_forall2 (row_for t s e q p) (fun j => ls_row L (Z.of_nat j)) js) as (rows & E & F).
      + intros j J. apply in_seq in J. assert (V : in_view t s e (q ++ [j])) by (apply VIEW; lia). assert (JL : j < len) by lia. destruct (nth_error (children n) j) as [c|] eqn:EC; [|apply nth_error_None in EC; fold len in EC; lia].
        assert (RC : reach t (q ++ [j]) c) by (eapply reach_snoc; eauto). rewrite <- N in EC. destruct (level_child_good L _ _ j c G EC) as (L' & CH & G' & N' & _). rewrite <- inners_snoc, <- inners_snoc in G'. destruct V as [_ RV].
        pose proof (whole_start t s e (q ++ [j]) c RC RV L' _ G' N') as WS'. destruct (whole_end t s e (q ++ [j]) c RC RV L' _ G' N') as (b' & EE' & WE').
        unfold ls_row, item_at. rewrite Nat2Z.id, EC. cbn [bindr]. rewrite CH. cbn [bindr]. 
        exists (Row (Z.of_nat j) (tid c) (negb (start_in_range L' && b')) (Z.of_nat j =? l_index L)%Z). split; [destruct (start_in_range L'); cbn [negb andb]; [rewrite EE'; reflexivity|reflexivity]|].
        exists c, (negb (start_in_range L' && b')), (Z.of_nat j =? l_index L)%Z. split; [exact RC|]. split; [reflexivity|]. split.
        * rewrite negb_false_iff, andb_true_iff, WS', WE'. unfold throughout. split; [intros [A B] x X; split; [exact (A x X)|exact (B x X)]|]. intros H. split; intros x X; now apply H.
        * destruct b; [destruct P as [-> IX]; rewrite IX; split; [intros; lia|intros Q; apply (f_equal (@List.length nat)) in Q; rewrite app_length in Q; cbn in Q; lia]|]. destruct P as (i & -> & IX & _). rewrite IX. split; [intros Q; assert (i = j) by lia; now subst|intros Q; apply app_inj_tail in Q as [_ ->]; lia].
      + exists rows. split.
        * rewrite <- E. unfold js. rewrite (seq_from _ (lo (inners s q))), mapr_map. apply mapr_ext. intros x. f_equal. lia.
        * apply (body_rows _ _ _ _ _ js); [|split; [apply seq_SS|]|exact F].
          -- unfold js. destruct (Z.to_nat (l_end L + 1 - l_start L)) eqn:Q; [lia|discriminate].
          -- intros j. rewrite VIEW. unfold js. rewrite in_seq. lia.
    - rewrite LEN. destruct (Nat.eqb_spec len 0) as [Z|NZ].
      + eexists. split; [reflexivity|]. apply body_leaf. intros j. rewrite KID. lia.
      + rewrite EE. cbn [bindr]. eexists. split; [reflexivity|]. apply (body_none _ _ _ _ _ 0); [apply KID; lia|intros j; rewrite VIEW; lia|exact WS|exact WE|]. intros k x ->. rewrite LO. f_equal. clear. induction q as [|i q IH]; [reflexivity|]. cbn [app inners inner]. now rewrite Nat.eqb_refl. }
  destruct BODY as (body & EB & HBODY). exists n, (if start_in_range L then [] else [StartBoundary]), body. unfold range_ls. cbn [r_top]. rewrite EB. cbn [bindr]. unfold ls_end. rewrite EE. cbn [bindr]. rewrite LEN, N.
  eexists. split; [exact R|]. split; [reflexivity|]. split; [exists (start_in_range L); split; [exact WS|reflexivity]|]. split; [exact HBODY|].
  exists we, (seq (Z.to_nat (l_end L + 1)) (len - Z.to_nat (l_end L + 1))). split; [exact WE|]. split; [split; [apply seq_SS|intros j; rewrite LATE, in_seq; lia]|]. destruct we; [reflexivity|].
  destruct (Z.ltb_spec (l_end L) (Z.of_nat len - 1)) as [LT|GE].
  - destruct (len - Z.to_nat (l_end L + 1)) as [|k] eqn:Q; [lia|]. cbn [seq]. f_equal. f_equal. cbn [List.length]. rewrite seq_length. lia.
  - replace (len - Z.to_nat (l_end L + 1)) with 0 by lia. reflexivity.
Qed.
Print Assumptions C120_ls.

(** ** The path to the current node *)

Lemma reach_fun t p : forall m m', reach t p m -> reach t p m' -> m = m'.
Proof. revert t. induction p as [|i p IH]; intros t m m' A B; [inversion A; inversion B; congruence|]. inversion A; subst. inversion B; subst. replace c0 with c in * by congruence. eauto. Qed.
Lemma path_snoc t q l i c : path_to t q l -> reach t (q ++ [i]) c -> path_to t (q ++ [i]) (l ++ [tid c]).
Proof.
  intros [LN H] R. split; [rewrite !app_length, LN; cbn; lia|]. rewrite app_length. cbn [List.length]. intros k m K M. destruct (Nat.eq_dec k (S (List.length q))) as [->|NK].
  - rewrite firstn_all2 in M by (rewrite app_length; cbn; lia). rewrite (reach_fun _ _ _ _ M R), nth_error_app2, LN, Nat.sub_diag by lia. reflexivity.
  - rewrite nth_error_app1 by lia. apply H; [lia|]. rewrite firstn_app in M. replace (k - List.length q) with 0 in M by lia. cbn [firstn] in M. now rewrite app_nil_r in M.
Qed.
Definition ids (l : list level) : list nat := map (fun l => tid (l_node l)) l.
Lemma inside_path t s e q n s' e' below : valid t s -> valid t e -> inside_at t s e q n s' e' below -> path_to t q (rev (tid n :: ids below)).
Proof.
  intros VS VE H. induction H as [|q n s' e' below L i c H IH G N IX C W].
  - split; [reflexivity|]. intros k m K M. assert (k = 0) by (cbn in K; lia). subst k. inversion M; subst. reflexivity.
  - cbn [ids map rev] in *. rewrite N. apply path_snoc; [exact IH|]. destruct (inside_facts t s e q n s' e' below VS VE H) as (R & _). eapply reach_snoc; eauto.
Qed.
Lemma inside_ids t s e q n s' e' below : valid t s -> valid t e -> all_different t -> inside_at t s e q n s' e' below -> forall L, l_node L = n ->
  exists l0, ids (L :: below) = l0 ++ [tid t] /\ ~ In (tid t) l0.
Proof.
  intros VS VE AD H. induction H as [|q n s' e' below L0 i c H IH G N IX C W]; intros L NL; [exists []; cbn; rewrite NL; auto|].
  destruct (IH L0 N) as (l0 & E & NI). exists (tid c :: l0). split; [cbn [ids map] in *; rewrite NL, E; reflexivity|]. intros [Q|Q]; [|auto]. destruct (inside_facts t s e q n s' e' below VS VE H) as (R & _).
  assert (RC : reach t (q ++ [i]) c) by (eapply reach_snoc; eauto). specialize (AD (q ++ [i]) [] c t RC (reach_here t) Q). now destruct q.
Qed.
Lemma until_stop a l r : ~ In a l -> until a (l ++ a :: r) = l ++ [a].
Proof. induction l as [|x l IH]; intros N; cbn [app until]; [now rewrite Nat.eqb_refl|]. rewrite (proj2 (Nat.eqb_neq x a)) by (intros ->; apply N; now left). rewrite IH; [reflexivity|]. intros I. apply N. now right. Qed.
Lemma until_none a l : ~ In a l -> until a l = l.
Proof. induction l as [|x l IH]; intros N; cbn [until]; [reflexivity|]. rewrite (proj2 (Nat.eqb_neq x a)) by (intros ->; apply N; now left). rewrite IH; [reflexivity|]. intros I. apply N. now right. Qed.

Lemma cur_ancestor t s e p b r : cur t s e p b r -> ancestor r = t.
Proof. intros (q & n & s' & e' & L & below & -> & IN & G & N & P). unfold ancestor, base_level. cbn [r_top r_below]. now destruct (inside_base t s e q n s' e' below L IN G N). Qed.

(** pwd shows the nodes from the ancestor of the range down to the current node. *)
Theorem C120_pwd : forall t s e r p b outer, all_different t -> used t s e r -> stands r p b -> p <> [] ->
  exists l, range_pwd outer r = Ok l /\ path_to t p l.
Proof.
  intros t s e r p b outer AD U ST NP. destruct (used_at t s e r p b U ST) as (VS & VE & C). destruct (cur_node t s e p b r VS VE C) as (m & M & _ & CM). unfold range_pwd. rewrite CM. cbn [bindr]. rewrite (cur_ancestor _ _ _ _ _ _ C).
  destruct C as (q & n & s' & e' & L & below & -> & IN & G & N & P). pose proof (inside_path t s e q n s' e' below VS VE IN) as PT. cbn [r_top r_below] in *. destruct b.
  - destruct P as [-> IX]. rewrite IX. cbn [Z.eqb Pos.eqb]. eexists. split; [reflexivity|]. destruct (inside_facts t s e q n s' e' below VS VE IN) as (R & _). rewrite (reach_fun _ _ _ _ M R).
    destruct IN as [|q n s' e' below L0 i c IN G0 N0 IX0 C W]; [congruence|]. destruct (inside_ids t s e q n s' e' below VS VE AD IN L0 N0) as (l0 & E & NI). fold (ids (L0 :: below)) in *. rewrite E, <- app_assoc in *. cbn [app] in *. now rewrite (until_stop _ l0 _ NI).
  - destruct P as (i & -> & IX & W). rewrite IX. replace (Z.of_nat i =? -1)%Z with false by lia. eexists. split; [reflexivity|]. destruct (inside_ids t s e q n s' e' below VS VE AD IN L N) as (l0 & E & NI). fold (ids (L :: below)). rewrite E, <- app_assoc. cbn [app]. rewrite (until_stop _ l0 _ NI), <- E.
    cbn [rev ids map] in *. rewrite N. now apply path_snoc.
Qed.
Print Assumptions C120_pwd.

(** Finding: when the range stands at its ancestor, pwd also shows everything above it, up to the root of the document. *)
Theorem C120_pwd_finding : forall t s e r outer, used t s e r -> stands r [] true -> ~ In (tid t) outer -> range_pwd outer r = Ok (rev outer ++ [tid t]).
Proof.
  intros t s e r outer U ST NI. destruct (used_at t s e r [] true U ST) as (VS & VE & C). destruct (cur_node t s e [] true r VS VE C) as (m & M & _ & CM). unfold range_pwd. rewrite CM. cbn [bindr]. rewrite (cur_ancestor _ _ _ _ _ _ C). inversion M; subst m.
  destruct C as (q & n & s' & e' & L & below & -> & IN & G & N & P). destruct P as [Q IX]. cbn [r_top r_below]. rewrite IX. cbn [Z.eqb Pos.eqb]. inversion IN; subst; [|destruct q0; discriminate]. cbn [map app rev]. now rewrite until_none.
Qed.
Print Assumptions C120_pwd_finding.

(** copy() gives a range with the same boundaries that stands at the ancestor, wherever the range is and after all edits with it. *)
Theorem C117_copy : forall t s e r, used t s e r -> exists r', range_copy r = Ok r' /\ used t s e r' /\ stands r' [] true.
Proof.
  intros t s e r U. destruct (used_all t s e r U) as (VS & VE & W & p & b & C). unfold range_copy. rewrite (cur_ancestor _ _ _ _ _ _ C). destruct W as (-> & -> & _). destruct (fresh_range t s e VS VE) as (L & E & G & N & IX).
  eexists. split; [exact E|]. assert (U' : used t s e (Range s e L [])) by (now apply used_new). split; [exact U'|]. exact (cur_stands t s e [] true _ VS VE (cur_new t s e _ VS VE E)).
Qed.
Print Assumptions C117_copy.

(** In the range from the node 3 to the node 8 of the document of C117: at the ancestor, and entered in the node 5. *)
From Verif Require Import Rangenav_Props.
Definition r4 := gotten (goto_trail r0 (Some [1])).
Definition r5 := gotten (enter r4).
Example C120_witness : used walked (Some [0; 1]) (Some [1; 1]) r0 /\ stands r0 [] true /\ used walked (Some [0; 1]) (Some [1; 1]) r5 /\ stands r5 [1] true /\
  range_ls r0 = Ok [Head 0; StartBoundary; Row 0 1 true false; Row 1 5 true false; EndMore 1] /\ range_ls r5 = Ok [Head 5; Row 0 6 false false; Row 1 8 false false; EndMore 1] /\
  range_ls r1 = Ok [Head 5; Row 0 6 false true; Row 1 8 false false; EndMore 1] /\ range_pwd [77; 88] r1 = Ok [0; 5; 6] /\ range_pwd [77; 88] r0 = Ok [88; 77; 0] /\ range_copy r5 = Ok r0.
Proof.
  assert (U0 : used walked (Some [0; 1]) (Some [1; 1]) r0) by (apply used_new; [existing|existing|vm_compute; reflexivity]).
  split; [exact U0|]. split; [split; vm_compute; reflexivity|]. split.
  { apply used_enter with (r := r4); [|vm_compute; reflexivity]. apply used_goto with (r := r0) (p := [1]); [exact U0|existing| |vm_compute; reflexivity]. split; [left; right; right; exists [], 0, 1, [1], []; repeat split; lia|right; left; exists 1, []; reflexivity]. }
  split; [split; vm_compute; reflexivity|]. repeat (split; [vm_compute; reflexivity|]). vm_compute. reflexivity.
Qed.
