(** Proofs about ranges: editing through a range. *)
From Coq Require Import List ZArith Bool PeanoNat Lia ZifyBool ZifyNat.
From Verif Require Import Base Node_Model Node_Spec Node_Nav Range_Model Range_Spec Range_Proofs Range_Machine.
Import ListNotations.

Section Lists.
Context {A : Type}.
Implicit Types l p q r v : list A.

Lemma parts l a b : a <= b <= List.length l -> exists p q r, l = p ++ q ++ r /\ List.length p = a /\ List.length q = b - a.
Proof.
  intros H. exists (firstn a l), (firstn (b - a) (skipn a l)), (skipn (b - a) (skipn a l)). rewrite !firstn_skipn. split; [reflexivity|]. rewrite !firstn_length, skipn_length. lia.
Qed.

Lemma slice_parts p q r a b : a = List.length p -> b = a + List.length q -> slice (p ++ q ++ r) a b = q.
Proof.
  intros -> ->. unfold slice. rewrite skipn_app, skipn_all, Nat.sub_diag. cbn [skipn app]. replace (List.length p + List.length q - List.length p) with (List.length q) by lia.
  rewrite firstn_app, firstn_all, Nat.sub_diag. cbn [firstn]. apply app_nil_r.
Qed.

Lemma splice_parts p q r v a b : a = List.length p -> b = a + List.length q -> splice (p ++ q ++ r) a b v = p ++ v ++ r.
Proof.
  intros -> ->. unfold splice. rewrite firstn_app, firstn_all, Nat.sub_diag. cbn [firstn]. rewrite app_nil_r. f_equal. f_equal.
  rewrite app_assoc, skipn_app. replace (List.length p + List.length q) with (List.length (p ++ q)) by (apply app_length). now rewrite skipn_all, Nat.sub_diag.
Qed.

Lemma splice_before l a b v k : a <= b <= List.length l -> b <= k -> nth_error (splice l a b v) (k + List.length v - (b - a)) = nth_error l k.
Proof.
  intros H K. destruct (parts l a b H) as (p & q & r & -> & <- & LQ). rewrite (splice_parts p q r v) by lia.
  rewrite nth_error_app2 by lia. rewrite nth_error_app2 by lia. rewrite (nth_error_app2 p) by lia. rewrite (nth_error_app2 q) by lia. f_equal. lia.
Qed.
Lemma splice_after l a b v k : a <= b <= List.length l -> k < a -> nth_error (splice l a b v) k = nth_error l k.
Proof.
  intros H K. destruct (parts l a b H) as (p & q & r & -> & <- & LQ). rewrite (splice_parts p q r v) by lia. now rewrite !nth_error_app1 by lia.
Qed.

Lemma slice_splice_before l a b v from to : a <= b <= from -> from <= to <= List.length l ->
  slice (splice l a b v) (from + List.length v - (b - a)) (to + List.length v - (b - a)) = slice l from to.
Proof.
  intros H K. destruct (parts l from to) as (p & q & r & -> & LP & LQ); [lia|]. destruct (parts p a b) as (p1 & p2 & p3 & -> & L1 & L2); [lia|]. rewrite !app_length in LP.
  replace ((p1 ++ p2 ++ p3) ++ q ++ r) with (p1 ++ p2 ++ (p3 ++ q ++ r)) by (now rewrite <- !app_assoc). rewrite (splice_parts p1 p2 _ v) by lia.
  replace (p1 ++ v ++ p3 ++ q ++ r) with ((p1 ++ v ++ p3) ++ q ++ r) by (now rewrite <- !app_assoc). rewrite slice_parts by (rewrite ?app_length; lia).
  replace (p1 ++ p2 ++ p3 ++ q ++ r) with ((p1 ++ p2 ++ p3) ++ q ++ r) by (now rewrite <- !app_assoc). rewrite slice_parts by (rewrite ?app_length; lia). reflexivity.
Qed.

Lemma slice_splice_within l a b v from to : from <= a -> a <= b <= to -> to <= List.length l ->
  slice (splice l a b v) from (to + List.length v - (b - a)) = firstn (a - from) (slice l from to) ++ v ++ skipn (b - from) (slice l from to).
Proof.
  intros H K L. destruct (parts l from to) as (p & q & r & -> & LP & LQ); [lia|]. destruct (parts q (a - from) (b - from)) as (q1 & q2 & q3 & -> & L1 & L2); [lia|]. rewrite !app_length in LQ.
  rewrite (slice_parts p (q1 ++ q2 ++ q3) r) by (rewrite ?app_length; lia). rewrite (firstn_app (a - from)). replace (a - from - List.length q1) with 0 by lia. rewrite <- L1, firstn_all. cbn [firstn]. rewrite app_nil_r.
  rewrite (app_assoc q1 q2 q3), (skipn_app (b - from)). replace (b - from) with (List.length (q1 ++ q2)) by (rewrite app_length; lia). rewrite skipn_all, Nat.sub_diag. cbn [skipn app].
  replace (p ++ ((q1 ++ q2) ++ q3) ++ r) with ((p ++ q1) ++ q2 ++ (q3 ++ r)) by (now rewrite <- !app_assoc). rewrite (splice_parts (p ++ q1) q2 _ v) by (rewrite ?app_length; lia).
  replace ((p ++ q1) ++ v ++ q3 ++ r) with (p ++ (q1 ++ v ++ q3) ++ r) by (now rewrite <- !app_assoc). apply slice_parts; rewrite ?app_length; lia.
Qed.

Lemma slice_splice_after l a b v from to : from <= to -> to <= a -> a <= b <= List.length l -> slice (splice l a b v) from to = slice l from to.
Proof.
  intros H K L. destruct (parts l a b L) as (p & q & r & -> & LP & LQ). rewrite (splice_parts p q r v) by lia. destruct (parts p from to) as (p1 & p2 & p3 & -> & L1 & L2); [lia|].
  rewrite <- !app_assoc. now rewrite !slice_parts by lia.
Qed.

Lemma slice_cons l a b x : nth_error l a = Some x -> a < b -> slice l a b = x :: slice l (S a) b.
Proof.
  intros E L. unfold slice. assert (SK : skipn a l = x :: skipn (S a) l).
  { revert a E L. induction l as [|y l IH]; intros [|a] E L; cbn in *; try discriminate; [congruence|]. apply (IH a E). lia. }
  rewrite SK. replace (b - a) with (S (b - S a)) by lia. reflexivity.
Qed.
Lemma slice_nil l a b : b <= a -> slice l a b = []. Proof. intros L. unfold slice. now replace (b - a) with 0 by lia. Qed.
End Lists.

(** ** The nodes to come on the current level *)

Definition from_index (L : level) : Z := if (l_index L =? -1)%Z then l_start L else (l_index L + 1)%Z.

Record sane (L : level) : Prop := {
  sn_start : (0 <= l_start L)%Z; sn_index : (-1 <= l_index L)%Z; sn_end : (-1 <= l_end L < Z.of_nat (List.length (children (l_node L))))%Z
}.

Lemma good_sane L s e : good L s e -> sane L.
Proof.
  intros G. split; [rewrite (g_lo _ _ _ G); lia|apply (g_index _ _ _ G)|]. rewrite (g_hi _ _ _ G). pose proof (g_ve _ _ _ G) as VE. destruct (l_node L) as [n ts]. apply valid_hi in VE. cbn [children]. split; [|exact VE].
  unfold hi. destruct e as [[|]|]; lia.
Qed.

Lemma exhaust_spec st et bs : forall fuel L, sane L -> Z.to_nat (l_end L + 1 - from_index L) < fuel ->
  exists r, exhaust fuel false (Range st et L bs) = Ok (map tid (slice (children (l_node L)) (Z.to_nat (from_index L)) (Z.to_nat (l_end L + 1))), r).
Proof.
  induction fuel as [|fuel IH]; intros L SN LF; [lia|]. destruct SN as [S1 S2 S3]. cbn [exhaust]. unfold step, level_next. cbn [r_top]. fold (from_index L).
  assert (F0 : (0 <= from_index L)%Z) by (unfold from_index; destruct (l_index L =? -1)%Z eqn:?; lia). destruct (l_end L <? from_index L)%Z eqn:LT; cbn [bindr].
  - rewrite slice_nil by lia. eauto.
  - unfold item_at. destruct (nth_error (children (l_node L)) (Z.to_nat (from_index L))) as [c|] eqn:E; [|apply nth_error_None in E; lia]. cbn [bindr]. unfold with_top. cbn [r_start_trail r_end_trail r_below].
    set (L1 := set_index L (from_index L)). assert (FI : from_index L1 = (from_index L + 1)%Z) by (unfold from_index at 1; cbn [L1 set_index l_index]; replace (from_index L =? -1)%Z with false by lia; reflexivity).
    assert (EN : l_end L1 = l_end L) by reflexivity. assert (CH : l_node L1 = l_node L) by reflexivity.
    destruct (IH L1) as [r X]; [split; rewrite ?EN, ?CH; cbn [L1 set_index l_start l_index l_end l_node]; lia|rewrite FI, EN; lia|]. rewrite X. cbn [bindr]. rewrite FI, EN, CH.
    rewrite (slice_cons _ _ _ c E) by lia. cbn [map]. replace (Z.to_nat (from_index L + 1)) with (S (Z.to_nat (from_index L))) by lia. eauto.
Qed.

(** ** Slices *)

Lemma clamp_nat len k : k <= len -> clamp (Z.of_nat len) (Z.of_nat k) = Z.of_nat k.
Proof. intros H. unfold clamp. replace (Z.of_nat k <? 0)%Z with false by lia. lia. Qed.

Lemma bounds_nat {A} (l : list A) a b : a <= b <= List.length l -> slice_bounds l (Some (Z.of_nat a)) (Some (Z.of_nat b)) = (a, b).
Proof. intros H. unfold slice_bounds. rewrite !clamp_nat by lia. f_equal; lia. Qed.

Definition moved (k : Z) (a b : nat) (v : list tree) : Z := if (Z.of_nat b <=? k)%Z then (k + Z.of_nat (List.length v) - Z.of_nat (b - a))%Z else k.

Definition edited (L : level) a b v : level := set_level_slice L (Some (Z.of_nat a)) (Some (Z.of_nat b)) v.

(** A child that is not replaced. *)
Definition clear_of (k : Z) (a b : nat) : Prop := (k < Z.of_nat a \/ Z.of_nat b <= k)%Z.

Definition moved_trail (t : option (list nat)) (d : nat) (x : Z) : option (list nat) := if deep t d then option_map (fun l => put l d x) t else t.

Lemma put_same l d i r : skipn d l = i :: r -> put l d (Z.of_nat i) = l.
Proof. intros E. unfold put. rewrite (skipn_S_cons _ _ _ _ E), Nat2Z.id, <- E. apply firstn_skipn. Qed.

Lemma deep_start L s e : good L s e -> deep (l_start_trail L) (l_depth L) = true -> exists t r, l_start_trail L = Some t /\ skipn (l_depth L) t = lo s :: r.
Proof.
  intros G D. pose proof (g_start _ _ _ G) as K. unfold keeps_start, deep in *. destruct (l_start_trail L) as [[|x t]|]; cbn [truthy] in *; [cbn in D; lia| |discriminate].
  destruct K as [-> LT]. exists (x :: t). destruct (skipn (l_depth L) (x :: t)) as [|i r] eqn:SK; [|exists r; auto]. pose proof (skipn_length (l_depth L) (x :: t)) as SL. rewrite SK in SL. cbn [List.length] in *. lia.
Qed.
Lemma deep_end L s e : good L s e -> deep (l_end_trail L) (l_depth L) = true -> exists t i r, l_end_trail L = Some t /\ skipn (l_depth L) t = i :: r /\ l_end L = Z.of_nat i.
Proof.
  intros G D. pose proof (g_end _ _ _ G) as K. pose proof (g_hi _ _ _ G) as HI. unfold keeps_end, deep in *. destruct (l_end_trail L) as [t|]; [|discriminate]. cbn [option_map] in K. subst e. exists t.
  destruct (skipn (l_depth L) t) as [|i r] eqn:SK; [|exists i, r; auto]. pose proof (skipn_length (l_depth L) t) as SL. rewrite SK in SL. cbn in SL. lia.
Qed.

Lemma lo_children t s : valid t s -> match s with Some (i :: _) => i < List.length (children t) | _ => True end.
Proof. destruct t as [n ts]. apply valid_lo. Qed.

Lemma edited_spec L s e a b v : good L s e -> children (l_node L) <> [] -> a <= b <= List.length (children (l_node L)) ->
  clear_of (l_start L) a b -> clear_of (l_end L) a b -> clear_of (l_index L) a b ->
  edited L a b v = Level (set_children (l_node L) (splice (children (l_node L)) a b v)) (l_depth L)
                     (moved_trail (l_start_trail L) (l_depth L) (moved (l_start L) a b v)) (moved_trail (l_end_trail L) (l_depth L) (moved (l_end L) a b v))
                     (moved (l_start L) a b v) (moved (l_end L) a b v) (moved (l_index L) a b v).
Proof.
  intros G NE H CS CE CI. destruct (good_sane _ _ _ G) as [S1 S2 S3]. unfold edited, set_level_slice. rewrite (bounds_nat _ a b H), !clamp_nat by lia. cbn beta iota.
  set (ts := children (l_node L)) in *. set (d := l_depth L). assert (LT : 0 < List.length ts) by (destruct ts; [congruence|cbn; lia]).
  assert (SL : (l_start L < Z.of_nat (List.length ts))%Z).
  { rewrite (g_lo _ _ _ G). pose proof (lo_children _ _ (g_vs _ _ _ G)) as VS. fold ts in VS. destruct s as [[|i s]|]; cbn [lo]; lia. }
  assert (EN : (l_end L = -1)%Z -> l_end_trail L <> None).
  { intros E1 E2. pose proof (g_end _ _ _ G) as K. unfold keeps_end in K. rewrite E2 in K. cbn in K. subst e. pose proof (g_hi _ _ _ G) as HI. cbn [hi] in HI. fold ts in HI. lia. }
  unfold clear_of, moved in *.
  replace (Z.of_nat (List.length ts) + Z.of_nat (List.length v) - (Z.of_nat b - Z.of_nat a) =? 0)%Z with false by lia.
  (* start *)
  assert (ST : (if (Z.of_nat a <=? l_start L)%Z then
      if (l_start L <? Z.of_nat a + (Z.of_nat b - Z.of_nat a))%Z then
        (Z.of_nat a + Z.of_nat (List.length v), if deep (l_start_trail L) d then option_map (fun t => cut_trail t d (if ((0 <? Z.of_nat a + Z.of_nat (List.length v)) && (Z.of_nat a + Z.of_nat (List.length v) <? Z.of_nat (List.length ts) + Z.of_nat (List.length v) - (Z.of_nat b - Z.of_nat a)))%Z then [Z.to_nat (Z.of_nat a + Z.of_nat (List.length v))] else [])) (l_start_trail L) else l_start_trail L)%Z
      else ((l_start L + (Z.of_nat (List.length v) - (Z.of_nat b - Z.of_nat a)))%Z, if deep (l_start_trail L) d then option_map (fun t => put t d (l_start L + (Z.of_nat (List.length v) - (Z.of_nat b - Z.of_nat a)))%Z) (l_start_trail L) else l_start_trail L)
    else (l_start L, l_start_trail L))
    = (if (Z.of_nat b <=? l_start L)%Z then (l_start L + Z.of_nat (List.length v) - Z.of_nat (b - a))%Z else l_start L, moved_trail (l_start_trail L) d (if (Z.of_nat b <=? l_start L)%Z then (l_start L + Z.of_nat (List.length v) - Z.of_nat (b - a))%Z else l_start L))).
  { destruct (Z.of_nat b <=? l_start L)%Z eqn:Q.
    - replace (Z.of_nat a <=? l_start L)%Z with true by lia. replace (l_start L <? Z.of_nat a + (Z.of_nat b - Z.of_nat a))%Z with false by lia. unfold moved_trail.
      replace (l_start L + (Z.of_nat (List.length v) - (Z.of_nat b - Z.of_nat a)))%Z with (l_start L + Z.of_nat (List.length v) - Z.of_nat (b - a))%Z by lia. reflexivity.
    - replace (Z.of_nat a <=? l_start L)%Z with false by lia. f_equal. unfold moved_trail. destruct (deep (l_start_trail L) d) eqn:D; [|reflexivity].
      destruct (deep_start L s e G D) as (t & r & -> & SK). cbn [option_map]. f_equal. rewrite (g_lo _ _ _ G). symmetry. eapply put_same; eauto. }
  rewrite ST. clear ST.
  assert (EQ : forall (X Y : Z * option (list nat)), X = Y -> forall f : Z -> option (list nat) -> level, (let (x, y) := X in f x y) = (let (x, y) := Y in f x y)) by (intros X Y -> f; reflexivity).
  rewrite (EQ _ (if (Z.of_nat b <=? l_end L)%Z then (l_end L + Z.of_nat (List.length v) - Z.of_nat (b - a))%Z else l_end L, moved_trail (l_end_trail L) d (if (Z.of_nat b <=? l_end L)%Z then (l_end L + Z.of_nat (List.length v) - Z.of_nat (b - a))%Z else l_end L))).
  - f_equal. destruct (Z.of_nat b <=? l_index L)%Z eqn:Q.
    + replace (Z.of_nat a <=? l_index L)%Z with true by lia. replace (l_index L <? Z.of_nat a + (Z.of_nat b - Z.of_nat a))%Z with false by lia. lia.
    + replace (Z.of_nat a <=? l_index L)%Z with false by lia. reflexivity.
  - destruct (Z.of_nat b <=? l_end L)%Z eqn:Q.
    + replace (Z.of_nat a <=? l_end L)%Z with true by lia. replace (l_end L <? Z.of_nat a + (Z.of_nat b - Z.of_nat a))%Z with false by lia. unfold moved_trail.
      replace (l_end L + (Z.of_nat (List.length v) - (Z.of_nat b - Z.of_nat a)))%Z with (l_end L + Z.of_nat (List.length v) - Z.of_nat (b - a))%Z by lia. reflexivity.
    + replace (Z.of_nat a <=? l_end L)%Z with false by lia.
      replace ((l_end L =? -1)%Z && match l_end_trail L with None => true | _ => false end) with false.
      2:{ symmetry. apply andb_false_iff. destruct (l_end L =? -1)%Z eqn:E1; [right|now left]. destruct (l_end_trail L) eqn:E2; [reflexivity|]. exfalso. apply EN; [lia|exact E2 || reflexivity]. }
      f_equal. unfold moved_trail. destruct (deep (l_end_trail L) d) eqn:D; [|reflexivity].
      destruct (deep_end L s e G D) as (t & i & r & -> & SK & ->). cbn [option_map]. f_equal. symmetry. eapply put_same; eauto.
Qed.
