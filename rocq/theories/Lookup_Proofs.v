From Coq Require Import List Bool PeanoNat Lia.
From Verif Require Import Base Lookup_Model Lookup_Spec.
Import ListNotations.
Open Scope nat_scope.

Section Proofs.
Context {name value file : Type}.
Notation dn := (dn name value file).
Notation scope := (scope name value file).
Variable name_eqb : name -> name -> bool.
Variable load : scope -> file -> option dn.
Notation run := (run name value file load).
Notation reads := (reads load).

Lemma numbered_children p l : children name value file p 0 l = numbered p l.
Proof.
  unfold numbered. assert (G : forall i, children name value file p i l = combine (map (fun i => p ++ [i]) (seq i (length l))) l); [|apply G].
  induction l as [|c l IH]; intros i; [reflexivity|]. cbn [children length seq map combine]. rewrite IH. reflexivity.
Qed.
Lemma handle_eq (n : dn) : is_handle _ _ _ (kind_of _ _ _ n) = has_assignments n.
Proof. destruct n as [[] kids]; reflexivity. Qed.
Lemma not_document (n : dn) : (forall kids, n <> DN _ _ _ (Document _ _ _) kids) -> is_document _ _ _ (kind_of _ _ _ n) = false.
Proof. destruct n as [[] kids]; intros H; try reflexivity. destruct (H kids eq_refl). Qed.

Lemma run_more fuel : forall s gen stack r j, run fuel s gen stack = Ok r -> run (fuel + j) s gen stack = Ok r.
Proof.
  induction fuel as [|fuel IH]; intros s gen stack r j E; [discriminate|]. cbn [Lookup_Model.run plus] in *. destruct gen as [|[p n] gen].
  - destruct stack as [|[s' gen'] stack]; [exact E|]. apply IH. exact E.
  - destruct (match kind_of _ _ _ n with Include _ _ _ f => load s f | _ => None end) as [dom|]; [apply IH; exact E|].
    destruct (run fuel s gen stack) as [x|e] eqn:R; [|discriminate]. rewrite (IH _ _ _ _ j R). exact E.
Qed.
Lemma run_reads s l out : reads s l out -> exists k, forall fuel gen stack r, run fuel s gen stack = Ok r -> run (k + fuel) s (rev l ++ gen) stack = Ok (rev out ++ r).
Proof.
  induction 1 as [s|s p f kids dom l o1 o2 L R1 (k1 & IH1) R2 (k2 & IH2)|s p n l o NI R (k & IH)].
  - exists 0. intros fuel gen stack r E. exact E.
  - exists (k2 + S (k1 + 1)). intros fuel gen stack r E. cbn [rev]. rewrite <- app_assoc. cbn [app]. rewrite rev_app_distr, <- app_assoc. rewrite <- Nat.add_assoc. apply IH2.
    cbn [plus Lookup_Model.run kind_of]. rewrite L, numbered_children. rewrite <- (app_nil_r (rev (numbered _ _))). rewrite <- Nat.add_assoc. apply IH1. cbn [plus Lookup_Model.run]. exact E.
  - exists (k + 1). intros fuel gen stack r E. cbn [rev]. rewrite <- !app_assoc. cbn [app]. rewrite <- Nat.add_assoc. apply IH. cbn [plus Lookup_Model.run].
    assert ((match kind_of _ _ _ n with Include _ _ _ f => load s f | _ => None end) = None) as ->. { destruct (kind_of _ _ _ n) eqn:K; try reflexivity. apply NI. reflexivity. }
    rewrite E. reflexivity.
Qed.
Lemma run_level s l out : reads s l out -> exists k, forall fuel, k <= fuel -> run fuel s (rev l) [] = Ok (rev out).
Proof.
  intros R. destruct (run_reads _ _ _ R) as (k & H). exists (k + 1). intros fuel F. replace fuel with (k + (1 + (fuel - (k + 1)))) by lia. specialize (H (1 + (fuel - (k + 1))) [] [] []). rewrite !app_nil_r in H. apply H. reflexivity.
Qed.

Lemma node_at_snoc (n : dn) p i : node_at _ _ _ n (p ++ [i]) = match node_at _ _ _ n p with Some m => nth_error (kids_of _ _ _ m) i | None => None end.
Proof. revert n. induction p as [|j p IH]; intros n; cbn [app node_at]; [destruct (nth_error (kids_of _ _ _ n) i); reflexivity|]. destruct (nth_error (kids_of _ _ _ n) j); [apply IH|reflexivity]. Qed.
Lemma levels_snoc path : forall p (n m : dn) i, node_at _ _ _ n path = Some m -> levels p n (path ++ [i]) = levels p n path ++ (if has_assignments m then [numbered (p ++ path) (firstn i (kids_of _ _ _ m))] else []).
Proof.
  induction path as [|j path IH]; intros p n m i N; cbn [app levels node_at] in *.
  - injection N as <-. rewrite app_nil_r. destruct (nth_error (kids_of _ _ _ n) i); cbn; rewrite app_nil_r; reflexivity.
  - destruct (nth_error (kids_of _ _ _ n) j) as [c|]; [|discriminate]. rewrite (IH _ _ _ i N), <- !app_assoc. reflexivity.
Qed.
Lemma ancestors_levels (root : dn) path : proper root path -> map (preceding _ _ _) (ancestors _ _ _ root (rev path)) = map (@rev _) (rev (levels [] root path)).
Proof.
  induction path as [|i path IH] using rev_ind; intros ((n & N) & D); [reflexivity|]. rewrite rev_app_distr. cbn [rev app ancestors]. rewrite rev_involutive.
  rewrite node_at_snoc in N. destruct (node_at _ _ _ root path) as [m|] eqn:M; [|discriminate]. rewrite (levels_snoc path [] root m i M), rev_app_distr, !map_app. f_equal.
  - rewrite handle_eq. destruct (has_assignments m); [|reflexivity]. cbn [map preceding rev app]. rewrite numbered_children. reflexivity.
  - destruct path as [|j path]; [cbn; destruct (is_document _ _ _ _); reflexivity|]. rewrite (not_document m) by (apply (D (j :: path) [i] m); auto || discriminate). apply IH. split; [eauto|].
    intros a b x E A B NX. apply (D a (b ++ [i]) x); auto; [rewrite E, app_assoc; reflexivity|destruct b; discriminate].
Qed.

Lemma run_all_ok s l : forall lv os, Forall2 (reads s) lv os -> map (preceding _ _ _) l = map (@rev _) (rev lv) ->
  exists k, forall fuel, k <= fuel -> run_all _ _ _ load fuel s l = Ok (rev (concat os)).
Proof.
  induction l as [|a l IH]; intros lv os F E.
  - destruct lv as [|x lv _] using rev_ind; [inversion F; subst; exists 0; reflexivity|]. rewrite rev_app_distr in E. discriminate.
  - destruct lv as [|x lv _] using rev_ind; [discriminate|]. rewrite rev_app_distr in E. cbn [rev app map] in E. injection E as E1 E2.
    apply Forall2_app_inv_l in F. destruct F as (o1 & o2 & F1 & F2 & ->). inversion F2 as [|? y ? o3 R F3]; subst. inversion F3; subst.
    destruct (IH lv o1 F1 E2) as (k1 & H1). destruct (run_level _ _ _ R) as (k2 & H2). exists (k1 + k2). intros fuel L. cbn [run_all]. rewrite E1, H2 by lia. cbn [bindr]. rewrite H1 by lia. cbn [bindr].
    rewrite concat_app, rev_app_distr. cbn [concat]. rewrite app_nil_r. reflexivity.
Qed.
Lemma preceding_ok s path out : read_before load s path out -> proper_scope s path -> exists k, forall fuel, k <= fuel -> preceding_nodes _ _ _ load fuel s path = Ok (rev out).
Proof.
  induction 1 as [dom path os node F|ps dom path os F|ps p dom path os o R IH F]; intros P; inversion P; subst.
  - destruct (run_all_ok _ _ _ _ F (ancestors_levels _ _ ltac:(eassumption))) as (k & H). exists k. intros fuel L. cbn [preceding_nodes]. rewrite H by lia. reflexivity.
  - destruct (run_all_ok _ _ _ _ F (ancestors_levels _ _ ltac:(eassumption))) as (k & H). exists k. intros fuel L. cbn [preceding_nodes]. rewrite H by lia. reflexivity.
  - destruct (run_all_ok _ _ _ _ F (ancestors_levels _ _ ltac:(eassumption))) as (k & H). destruct IH as (k' & H'); [assumption|]. exists (k + k'). intros fuel L. cbn [preceding_nodes]. rewrite H by lia. cbn [bindr].
    rewrite H' by lia. cbn [bindr]. rewrite rev_app_distr. reflexivity.
Qed.
Lemma local_ok (root : dn) path : proper root path -> preceding_nodes_local _ _ _ root path = rev (map snd (concat (levels [] root path))).
Proof.
  intros P. unfold preceding_nodes_local. rewrite flat_map_concat_map, <- (map_map (preceding _ _ _) (map snd)), (ancestors_levels _ _ P). generalize (levels [] root path). intros L.
  induction L as [|l L IH]; [reflexivity|]. cbn [rev concat]. rewrite !map_app, rev_app_distr, concat_app, IH. cbn [map concat]. rewrite app_nil_r, map_rev. reflexivity.
Qed.

(** The first in the reversed list is the last one. *)
Lemma find_last {A} (f : A -> bool) l x : find f (rev l) = Some x <-> exists l1 l2, l = l1 ++ x :: l2 /\ f x = true /\ forall y, In y l2 -> f y = false.
Proof.
  induction l as [|y l IH] using rev_ind.
  - cbn. split; [discriminate|]. intros ([|? ?] & l2 & E & _); discriminate.
  - rewrite rev_app_distr. cbn [rev app find]. destruct (f y) eqn:Y.
    + split.
      * intros [= <-]. exists l, []. split; [reflexivity|]. split; [exact Y|intros z []].
      * intros (l1 & l2 & E & X & H). destruct l2 as [|z l2 _] using rev_ind; [apply app_inj_tail in E; destruct E; congruence|].
        rewrite app_comm_cons, app_assoc in E. apply app_inj_tail in E. destruct E as (_ & <-). rewrite (H y) in Y; [discriminate|apply in_or_app; right; left; reflexivity].
    + rewrite IH. split.
      * intros (l1 & l2 & -> & X & H). exists l1, (l2 ++ [y]). rewrite <- app_assoc. split; [reflexivity|]. split; [exact X|]. intros z I. apply in_app_iff in I. destruct I as [I|[<-|[]]]; auto.
      * intros (l1 & l2 & E & X & H). destruct l2 as [|z l2 _] using rev_ind; [apply app_inj_tail in E; destruct E; congruence|].
        rewrite app_comm_cons, app_assoc in E. apply app_inj_tail in E. destruct E as (-> & <-). exists l1, l2. split; [reflexivity|]. split; [exact X|]. intros z I. apply H, in_or_app. auto.
Qed.
Lemma find_none {A} (f : A -> bool) l : find f (rev l) = None <-> forall x, In x l -> f x = false.
Proof.
  split.
  - intros E x I. apply (find_none f (rev l) E). apply -> in_rev. exact I.
  - intros H. destruct (find f (rev l)) as [x|] eqn:E; [|reflexivity]. apply find_some in E. destruct E as (I & X). rewrite (H x) in X; [discriminate|]. apply in_rev. exact I.
Qed.
Lemma assigns_is nm (n : dn) v : assigns name_eqb nm n v <-> is_assignment _ _ _ name_eqb nm n = true /\ value_of _ _ _ n = v.
Proof.
  unfold assigns, is_assignment, value_of. split.
  - intros (m & kids & -> & E). cbn. auto.
  - destruct n as [[[m|] w| | | |] kids]; cbn; intros (A & B); try discriminate. subst w. eauto.
Qed.
Lemma not_assigns nm (n : dn) : is_assignment _ _ _ name_eqb nm n = false <-> forall v, ~ assigns name_eqb nm n v.
Proof.
  split.
  - intros E v A. apply assigns_is in A. destruct A. congruence.
  - intros H. destruct (is_assignment _ _ _ name_eqb nm n) eqn:E; [|reflexivity]. exfalso. apply (H (value_of _ _ _ n)). apply assigns_is. auto.
Qed.

(** Reading comes to an end if include chains are finite. *)
Fixpoint depth (s : scope) : nat := match s with Scope _ _ _ (Some p) _ _ => S (depth p) | Scope _ _ _ None _ _ => 0 end.
Lemma reads_total N : (forall s f dom, load s f = Some dom -> depth s < N) -> forall s l, exists out, reads s l out.
Proof.
  intros H. assert (G : forall k s, N - depth s <= k -> forall l, exists out, reads s l out).
  { induction k as [|k IH]; intros s D l.
    - induction l as [|[p n] l (o & R)]; [exists []; constructor|]. exists ((n, s) :: o). constructor; [|exact R]. intros f K. destruct (load s f) as [dom|] eqn:L; [|reflexivity]. apply H in L. lia.
    - induction l as [|[p n] l (o & R)]; [exists []; constructor|].
      assert (OT : (forall f, kind_of _ _ _ n = Include _ _ _ f -> load s f = None) -> exists out, reads s ((p, n) :: l) out) by (intros X; exists ((n, s) :: o); constructor; assumption).
      destruct n as [k0 kids]. destruct k0; try (apply OT; cbn; discriminate). destruct (load s f) as [dom|] eqn:L; [|apply OT; cbn; intros f' [= <-]; exact L].
      destruct (IH (Scope _ _ _ (Some s) (Some p) dom)) with (l := numbered [] (kids_of _ _ _ dom)) as (o1 & R1); [apply H in L; cbn [depth]; lia|].
      exists (o1 ++ o). eapply reads_include; eauto. }
  intros s l. apply (G (N - depth s) s (le_n _)).
Qed.
Lemma levels_total N s lv : (forall s f dom, load s f = Some dom -> depth s < N) -> exists os, Forall2 (reads s) lv os.
Proof. intros H. induction lv as [|l lv (os & F)]; [exists []; constructor|]. destruct (reads_total N H s l) as (o & R). exists (o :: os). constructor; assumption. Qed.
Lemma read_before_total N : (forall s f dom, load s f = Some dom -> depth s < N) -> forall s path, exists out, read_before load s path out.
Proof.
  intros H. fix rec 1. intros [[ps|] [p|] dom] path.
  - destruct (rec ps p) as (o & R). destruct (levels_total N (Scope _ _ _ (Some ps) (Some p) dom) (levels [] dom path) H) as (os & F). eexists. econstructor; eassumption.
  - destruct (levels_total N (Scope _ _ _ (Some ps) None dom) (levels [] dom path) H) as (os & F). eexists. econstructor; eassumption.
  - destruct (levels_total N (Scope _ _ _ None (Some p) dom) (levels [] dom path) H) as (os & F). eexists. econstructor; eassumption.
  - destruct (levels_total N (Scope _ _ _ None None dom) (levels [] dom path) H) as (os & F). eexists. econstructor; eassumption.
Qed.
End Proofs.
