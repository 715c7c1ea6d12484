(** Proofs about indented output. *)
From Coq Require Import String Ascii List Arith Bool Lia ZifyBool.
From Verif Require Import Base Element_Model Element_Spec Element_Proofs Indent_Model Indent_Spec.
Import ListNotations.

Section Proofs.
Variables indent_width start_indent max_align_indent : nat.
Variable indent_children : elem -> bool.
Variable align : elem -> list nat.
Variable override : elem -> option nat.
Variable concat_space : attrs -> elem -> elem -> str.
Notation indent_at := (indent_at indent_width start_indent).
Notation add_space := (add_space indent_width start_indent).
Notation add_piece := (add_piece indent_width start_indent).
Notation typeset := (typeset indent_width start_indent).
Notation current_indent := (current_indent start_indent).
Notation flow := (flow indent_children override concat_space).
Notation printable := (printable indent_children).

(** Whether alignment is absent. *)
Variable NA : Prop.

Fixpoint lv (n : nat) : list nat := match n with 0 => [] | S k => indent_at (S k) :: lv k end.
Lemma lv_length : forall n, length (lv n) = n.
Proof. induction n; cbn; auto. Qed.
Lemma lv_skip : forall m n, skipn m (lv n) = lv (n - m).
Proof.
  induction m as [|m IH]; intros n; [cbn; rewrite Nat.sub_0_r; reflexivity|]. destruct n as [|n]; [reflexivity|]. cbn [lv skipn]. apply IH.
Qed.
Lemma lv_current : forall n, current_indent (lv n) = indent_at n.
Proof. destruct n; [unfold Indent_Spec.indent_at; cbn; lia|reflexivity]. Qed.

Definition same (b : block) (l : line) : Prop := b_line b = l_pieces l /\ (NA -> b_indent b = l_indent l).

Record rel (w : nat) (d : nat) (s : state) (ws : list str) (ls : list line) : Prop := Rel {
  r_ws : i_ws s = ws;
  r_lines : Forall2 same (i_output s) ls;
  r_some : ls <> [];
  r_ded : i_ded s <= length (i_stack s);
  r_depth : d = length (i_stack s) - i_ded s + length (i_indenters s);
  r_stack : NA -> i_stack s = lv (length (i_stack s));
  r_align : NA -> Forall (fun l => align_indices l = []) (i_indenters s);
  r_can : forall l more, ls = l :: more -> i_can s = true ->
          l_tails l = true /\ (i_ded s = 0 \/ (w = 1 /\ i_ded s = 1 /\ i_indenters s = [])) /\ (NA -> l_indent l = current_indent (i_stack s));
  r_cannot : forall l more, ls = l :: more -> i_can s = false -> l_tails l = true -> i_stack s = [] /\ (NA -> l_indent l = indent_at 0)
}.

Lemma push_none : forall inds out cur n stack, Forall (fun l => align_indices l = []) inds ->
  stack = lv n ->
  push_levels indent_width max_align_indent inds out (indent_at n) cur stack = Ok (lv (n + length inds)).
Proof.
  intros inds out cur n stack F. revert cur n stack.
  induction F as [|l r E F IH]; intros cur n stack St; cbn [push_levels length].
  - rewrite Nat.add_0_r. subst. reflexivity.
  - unfold get_align_pos. rewrite E. cbn [align_pos_loop bindr].
    replace (indent_at n + indent_width) with (indent_at (S n)) by (unfold Indent_Spec.indent_at; lia).
    rewrite (IH cur (S n)); [do 2 f_equal; lia|]. subst. reflexivity.
Qed.

Lemma push_ok : forall inds out new cur stack, out <> [] ->
  exists stack', push_levels indent_width max_align_indent inds out new cur stack = Ok stack' /\ length stack' = length stack + length inds.
Proof.
  induction inds as [|l r IH]; intros out new cur stack N; cbn [push_levels length].
  - eexists. split; [reflexivity|lia].
  - destruct out as [|b out']; [congruence|].
    destruct (get_align_pos l) as [p|]; cbn [bindr].
    + destruct (IH (b :: out') (if offset b p <=? max_align_indent then cur + offset b p else new + indent_width) cur
        ((if offset b p <=? max_align_indent then cur + offset b p else new + indent_width) :: stack) N) as (x & E & L).
      rewrite E. exists x. split; [reflexivity|]. rewrite L. cbn. lia.
    + destruct (IH (b :: out') (new + indent_width) cur (new + indent_width :: stack) N) as (x & E & L).
      rewrite E. exists x. split; [reflexivity|]. rewrite L. cbn. lia.
Qed.

Lemma out_some : forall w d s ws ls, rel w d s ws ls -> i_output s <> [].
Proof. intros w d s ws ls R E. destruct R. rewrite E in *. inversion r_lines0; congruence. Qed.

Lemma new_block_ok : forall w w' d s ws ls, rel w d s ws ls ->
  exists s', create_new_block indent_width start_indent max_align_indent s = Ok s' /\ rel w' d s' ws (Line (indent_at d) true [] :: ls).
Proof.
  intros w w' d s ws ls R. pose proof (out_some _ _ _ _ _ R) as O. destruct R as [R1 R2 R3 R4 R5 R6 R7 R8 R9]. unfold create_new_block.
  destruct (push_ok (rev (i_indenters s)) (i_output s) (current_indent (skipn (i_ded s) (i_stack s))) (current_indent (skipn (i_ded s) (i_stack s)))
    (skipn (i_ded s) (i_stack s)) O) as (stack' & E & L).
  rewrite E. cbn [bindr]. eexists. split; [reflexivity|].
  rewrite rev_length, skipn_length in L.
  assert (LV : NA -> stack' = lv d).
  { intros na. specialize (R6 na). specialize (R7 na). 
    assert (SK : skipn (i_ded s) (i_stack s) = lv (length (i_stack s) - i_ded s)) by (rewrite R6 at 1; apply lv_skip).
    rewrite SK, lv_current in E. rewrite push_none in E; [|apply Forall_rev; exact R7|reflexivity]. injection E as <-. rewrite rev_length. f_equal. lia. }
  constructor; cbn [i_ws i_output i_stack i_indenters i_ded i_can length].
  - exact R1.
  - constructor; [|exact R2]. split; [reflexivity|]. intros na. cbn. rewrite (LV na). apply lv_current.
  - discriminate.
  - lia.
  - lia.
  - intros na. rewrite (LV na), lv_length. reflexivity.
  - constructor.
  - intros l more X C. injection X; intros; subst l more. cbn. split; [reflexivity|]. split; [left; reflexivity|]. intros na. rewrite (LV na), lv_current. reflexivity.
  - intros l more X C _. injection X; intros; subst l more. destruct stack'; [|discriminate]. cbn in *. split; [reflexivity|]. intros _. f_equal. lia.
Qed.

Lemma append_ok : forall w d s ws l more t, rel w d s ws (l :: more) ->
  exists s', append_text s t = Ok s' /\ rel w d s' ws (Line (l_indent l) (l_tails l) (l_pieces l ++ [t]) :: more) /\
    i_can s' = i_can s /\ i_ded s' = i_ded s.
Proof.
  intros w d s ws l more t R. destruct R as [R1 R2 R3 R4 R5 R6 R7 R8 R9]. unfold append_text.
  destruct (i_output s) as [|b out] eqn:O; [inversion R2|]. inversion R2 as [|? ? ? ? S1 S2]; subst.
  eexists. split; [reflexivity|]. split; [|split; reflexivity]. constructor; cbn [i_ws i_output i_stack i_indenters i_ded i_can]; auto.
  - constructor; [|exact S2]. destruct S1 as [A B]. split; cbn; [rewrite A; reflexivity|exact B].
  - discriminate.
  - intros l' m' X C. injection X; intros; subst. cbn. apply (R8 _ _ eq_refl C).
  - intros l' m' X C T. injection X; intros; subst. cbn in *. apply (R9 _ _ eq_refl C T).
Qed.

Lemma add_space_some : forall d g ls, ls <> [] -> add_space d g ls <> [].
Proof.
  intros d. induction g as [|c g IH]; intros ls N; [exact N|]. cbn [Indent_Spec.add_space]. apply IH. destruct (Ascii.eqb c nl); [discriminate|].
  destruct ls; [congruence|discriminate].
Qed.

Lemma space_loop_ok : forall g w d s ws ls, rel w d s ws ls ->
  exists s', space_loop indent_width start_indent max_align_indent g s = Ok s' /\ rel w d s' ws (add_space d g ls).
Proof.
  induction g as [|c g IH]; intros w d s ws ls R; [eexists; split; [reflexivity|exact R]|].
  cbn [space_loop Indent_Spec.add_space]. destruct (Ascii.eqb c nl).
  - destruct (new_block_ok w w d s ws ls R) as (s' & E & R'). rewrite E. cbn [bindr]. apply IH. exact R'.
  - destruct ls as [|l more]; [destruct R; congruence|]. destruct (append_ok _ _ _ _ _ _ [c] R) as (s' & E & R' & _). rewrite E. cbn [bindr]. apply IH. exact R'.
Qed.

Lemma set_ws : forall w d s ws ls ws', rel w d s ws ls ->
  rel w d (State (i_output s) (i_stack s) (i_indenters s) (i_ded s) ws' (i_can s)) ws' ls.
Proof. intros w d s ws ls ws' R. destruct R. constructor; cbn; auto. Qed.

Lemma output_space_ok : forall w d s ws ls, rel w d s ws ls ->
  exists s' g, output_space indent_width start_indent max_align_indent s = Ok s' /\ strongest ws g /\ rel w d s' [] (add_space d g ls).
Proof.
  intros w d s ws ls R. unfold output_space. rewrite (r_ws _ _ _ _ _ R).
  destruct (space_loop_ok (collapse_whitespace ws) w d s ws ls R) as (s' & E & R'). rewrite E. cbn [bindr].
  do 2 eexists. split; [reflexivity|]. split; [apply strongest_collapse|]. eapply set_ws. exact R'.
Qed.

Lemma head_ok : forall w w' d s ws ls text idx ov, rel w d s ws ls ->
  exists s' g, output_head indent_width start_indent max_align_indent text idx ov s = Ok s' /\ strongest ws g /\
    rel w' d s' [] (add_piece false text d ov (add_space d g ls)).
Proof.
  intros w w' d s ws ls text idx ov R. unfold output_head.
  destruct (output_space_ok _ _ _ _ _ R) as (s1 & g & E & G & R1). rewrite E. cbn [bindr].
  destruct R1 as [A1 A2 A3 A4 A5 A6 A7 A8 A9].
  destruct (i_output s1) as [|b out] eqn:O; [inversion A2; congruence|].
  destruct (add_space d g ls) as [|l more] eqn:AS; [congruence|]. inversion A2 as [|? ? ? ? S1 S2]; subst.
  do 2 eexists. split; [reflexivity|]. split; [exact G|]. rewrite AS. cbn [Indent_Spec.add_piece].
  destruct S1 as [P1 P2].
  constructor; cbn [i_ws i_output i_stack i_indenters i_ded i_can]; auto.
  - constructor; [|exact S2]. split; cbn; [rewrite P1; reflexivity|]. intros na. rewrite P1, (P2 na). reflexivity.
  - discriminate.
  - destruct (i_indenters s1); [destruct idx; reflexivity|]. destruct idx as [i|]; [|reflexivity]. destruct (existsb _ _); reflexivity.
  - intros na. specialize (A7 na). destruct (i_indenters s1); [destruct idx; constructor|]. destruct idx as [i|]; [|exact A7]. destruct (existsb _ _); [|exact A7].
    constructor; [exact (Forall_inv A7)|exact (Forall_inv_tail A7)].
  - intros; discriminate.
  - intros l' m' X C T. injection X; intros; subst. cbn in T. rewrite andb_false_r in T. discriminate.
Qed.

Lemma tail_ok : forall w d s ws ls text, rel w d s ws ls ->
  exists s' g, output_tail indent_width start_indent max_align_indent text s = Ok s' /\ strongest ws g /\
    rel 0 d s' [] (add_piece true text d None (add_space d g ls)).
Proof.
  intros w d s ws ls text R. unfold output_tail.
  destruct (output_space_ok _ _ _ _ _ R) as (s1 & g & E & G & R1). rewrite E. cbn [bindr].
  pose proof R1 as R1'. destruct R1' as [A1 A2 A3 A4 A5 A6 A7 A8 A9].
  destruct (add_space d g ls) as [|l more] eqn:AS; [congruence|].
  cbn [Indent_Spec.add_piece].
  destruct (i_can s1 && negb (Nat.eqb (i_ded s1) 0)) eqn:C.
  - assert (C1 : i_can s1 = true) by (destruct (i_can s1); [reflexivity|discriminate]).
    destruct (A8 _ _ eq_refl C1) as (T1 & T2 & T3). destruct T2 as [T2|(T2a & T2 & T2i)]; [rewrite T2, andb_comm in C; discriminate|].
    rewrite T2 in *. cbn [Nat.sub]. destruct (i_stack s1) as [|x stack] eqn:SK; [cbn in A4; lia|]. cbn [del_nth bindr].
    destruct (i_output s1) as [|b out] eqn:O; [inversion A2|]. inversion A2 as [|? ? ? ? S1 S2]; subst. cbn [bindr].
    unfold append_text. cbn [i_output b_line b_indent]. do 2 eexists. split; [reflexivity|]. split; [exact G|].
    rewrite AS. cbn [Indent_Spec.add_piece]. rewrite T1. rewrite T2i in *. cbn [length] in *.
    assert (DD : S (length stack) - 1 + 0 = length stack) by lia. rewrite DD.
    assert (STK : NA -> stack = lv (length stack)). { intros na. specialize (A6 na). cbn [lv] in A6. congruence. }
    destruct S1 as [P1 P2].
    assert (IND : NA -> current_indent stack = Nat.min (l_indent l) (indent_at (length stack))).
    { intros na. rewrite (STK na) at 1. rewrite lv_current, (T3 na). cbn [Indent_Model.current_indent]. specialize (A6 na). cbn [lv] in A6.
      injection A6 as A6 _. rewrite A6. unfold Indent_Spec.indent_at. lia. }
    constructor; cbn [i_ws i_output i_stack i_indenters i_ded i_can length]; auto.
    + constructor; [|exact S2]. split; cbn; [rewrite P1; reflexivity|exact IND].
    + discriminate.
    + lia.
    + intros l' m' X _. injection X; intros; subst. cbn. split; [reflexivity|]. split; [left; reflexivity|]. intros na. symmetry. exact (IND na).
    + congruence.
  - cbn [bindr]. destruct (append_ok _ _ _ _ _ _ text R1) as (s2 & E2 & R2 & C2 & D2). rewrite E2.
    exists s2, g. split; [reflexivity|]. split; [exact G|]. rewrite AS. cbn [Indent_Spec.add_piece]. rewrite andb_true_r.
    assert (IN : NA -> l_tails l = true -> Nat.min (l_indent l) (indent_at d) = l_indent l).
    { intros na T. destruct (i_can s1) eqn:CN.
      - destruct (A8 _ _ eq_refl eq_refl) as (_ & T2 & T3). rewrite (T3 na), (A6 na), lv_current.
        assert (i_ded s1 = 0) by (destruct (Nat.eqb_spec (i_ded s1) 0); [assumption|discriminate]).
        assert (length (i_stack s1) <= d) by lia. unfold Indent_Spec.indent_at. nia.
      - destruct (A9 _ _ eq_refl eq_refl T) as (_ & T2). rewrite (T2 na). unfold Indent_Spec.indent_at. nia. }
    destruct R2 as [B1 B2 B3 B4 B5 B6 B7 B8 B9].
    constructor; auto.
    + inversion B2 as [|b ? out ? S1 S2]; subst. constructor; [|exact S2]. destruct S1 as [P1 P2]. split; [exact P1|]. intros na. cbn.
      rewrite (P2 na). cbn. destruct (l_tails l) eqn:T; [rewrite (IN na eq_refl); reflexivity|reflexivity].
    + discriminate.
    + intros l' m' X Cn. injection X; intros; subst. cbn. rewrite C2 in Cn. destruct (B8 _ _ eq_refl ltac:(congruence)) as (T1 & T2 & T3). cbn in T1, T3.
      split; [exact T1|]. split.
      * left. rewrite Cn in C. rewrite D2. destruct (Nat.eqb_spec (i_ded s1) 0); [assumption|discriminate].
      * intros na. rewrite T1. rewrite (IN na T1). exact (T3 na).
    + intros l' m' X Cn T. injection X; intros; subst. cbn in *. destruct (B9 _ _ eq_refl Cn T) as (T1 & T2). split; [exact T1|].
      intros na. rewrite T, (IN na T). cbn in T2. exact (T2 na).
Qed.

Lemma ws_ok : forall w d s ws ls x, rel w d s ws ls -> rel w d (add_whitespace x s) (ws ++ [x]) ls.
Proof. intros w d s ws ls x R. unfold add_whitespace. rewrite (r_ws _ _ _ _ _ R). eapply set_ws; exact R. Qed.

Lemma enter_ok : forall d s ws ls e, rel 0 d s ws ls -> (NA -> align e = []) -> rel 0 (S d) (enter_indent align e s) ws ls.
Proof.
  intros d s ws ls e R N. destruct R as [R1 R2 R3 R4 R5 R6 R7 R8 R9]. unfold enter_indent.
  constructor; cbn [i_ws i_output i_stack i_indenters i_ded i_can length]; auto.
  - lia.
  - intros l more X C. destruct (R8 _ _ X C) as (A & [B|(B & _)] & D); [auto|discriminate].
Qed.

Lemma leave_ok : forall d s ws ls, rel 0 (S d) s ws ls -> rel 1 d (leave_indent s) ws ls.
Proof.
  intros d s ws ls R. destruct R as [R1 R2 R3 R4 R5 R6 R7 R8 R9]. unfold leave_indent. destruct (i_indenters s) as [|i inds] eqn:I;
  constructor; cbn [i_ws i_output i_stack i_indenters i_ded i_can length] in *; auto; try lia.
  - intros l more X C. destruct (R8 _ _ X C) as (A & [B|(B & _)] & D); [|discriminate]. split; [exact A|]. split; [|exact D]. right. rewrite B. auto.
  - intros na. exact (Forall_inv_tail (R7 na)).
  - intros l more X C. destruct (R8 _ _ X C) as (A & [B|(B & _)] & D); [|discriminate]. auto.
Qed.

Fixpoint kids_flow (a : attrs) (depth : nat) (l : list elem) : list event :=
  match l with
  | [] => []
  | n :: r => flow depth n ++ match r with [] => [] | m :: _ => [Want (concat_space a n m)] end ++ kids_flow a depth r
  end.
Definition before_kid (a : attrs) (prev : option elem) (l : list elem) : list event :=
  match prev, l with Some n, m :: _ => [Want (concat_space a n m)] | _, _ => [] end.

Lemma flow_eq : forall depth a kids, flow depth (E a kids) =
  let inner := if indent_children (E a kids) then S depth else depth in
      [Want (a_before a)]
      ++ (if truthy (head_text a)
          then Say false (head_text a) depth (override (E a kids))
               :: match kids, a_tail a with [], [] => [] | _, _ => [Want (a_after_head a)] end
          else [])
      ++ kids_flow a inner kids
      ++ (if truthy (a_tail a) then [Want (a_before_tail a); Say true (a_tail a) depth None] else [])
      ++ [Want (a_after a)].
Proof.
  intros. cbn [Indent_Spec.flow]. cbv zeta.
  assert (E1 : forall inner l, (fix children (l : list elem) : list event :=
            match l with
            | [] => []
            | n :: r => flow inner n ++ match r with [] => [] | m :: _ => [Want (concat_space a n m)] end ++ children r
            end) l = kids_flow a inner l).
  { intros inner. induction l as [|n r IH]; [reflexivity|]. cbn [kids_flow]. rewrite <- IH. reflexivity. }
  rewrite E1. reflexivity.
Qed.

Definition kids_loop (a : attrs) := (fix children (l : list elem) (prev : option elem) (i : nat) (s : state) : res state :=
           match l with
           | [] => Ok s
           | m :: r =>
               let s := match prev with None => s | Some n => add_whitespace (concat_space a n m) s end in
               let! s := output_node indent_width start_indent max_align_indent indent_children align override concat_space m (Some i) s in
               children r (Some m) (S i) s
           end).

Definition unaligned (e : elem) : Prop := indent_children e = true -> align e = [].

Lemma node_ok : forall e d idx s ws ls, printable e -> (NA -> every_node unaligned e) -> rel 0 d s ws ls ->
  exists s' ws' ls', output_node indent_width start_indent max_align_indent indent_children align override concat_space e idx s = Ok s' /\
    rel 0 d s' ws' ls' /\ forall rest out, typeset ws' ls' rest out -> typeset ws ls (flow d e ++ rest) out.
Proof.
  induction e as [a kids IH] using elem_ind2. intros d idx s ws ls Pr Un R.
  rewrite flow_eq. cbv zeta. cbn [output_node]. fold (kids_loop a).
  cbn [Indent_Spec.printable] in Pr. destruct Pr as ((head & Hh) & Tl & Pk). rewrite Hh. cbn [bindr].
  unfold head_text. rewrite Hh.
  (* head *)
  assert (H1 : exists s1 ws1 ls1,
     (if truthy head then
          let! s := output_head indent_width start_indent max_align_indent head idx (override (E a kids)) (add_whitespace (a_before a) s) in
          Ok (if truthy (a_tail a) || negb (Nat.eqb (length kids) 0) then add_whitespace (a_after_head a) s else s)
        else Ok (add_whitespace (a_before a) s)) = Ok s1 /\ rel 0 d s1 ws1 ls1 /\
     forall rest out, typeset ws1 ls1 rest out -> typeset ws ls (([Want (a_before a)] ++ (if truthy head
          then Say false head d (override (E a kids)) :: match kids, a_tail a with [], [] => [] | _, _ => [Want (a_after_head a)] end
          else [])) ++ rest) out).
  { pose proof (ws_ok _ _ _ _ _ (a_before a) R) as R1. destruct (truthy head) eqn:TH.
    - destruct (head_ok 0 0 d _ _ _ head idx (override (E a kids)) R1) as (s2 & g & E2 & G & R2). rewrite E2. cbn [bindr].
      assert (CS : (exists e1 e2, kids = [] /\ a_tail a = [] /\ e1 = 0 /\ e2 = 0) \/
         (truthy (a_tail a) || negb (Nat.eqb (length kids) 0) = true /\ match kids, a_tail a with [], [] => [] | _, _ => [Want (a_after_head a)] end = [Want (a_after_head a)])).
      { destruct kids; destruct (a_tail a); cbn; [left; exists 0, 0; auto|right; auto|right; auto|right; auto]. }
      destruct CS as [(_ & _ & -> & Ta & _)|[-> ->]].
      + rewrite Ta. cbn [truthy length Nat.eqb negb orb]. do 3 eexists. split; [reflexivity|]. split; [exact R2|].
        intros rest out Ty. cbn [app]. constructor. econstructor; [exact G|exact Ty].
      + do 3 eexists. split; [reflexivity|]. split; [apply ws_ok; exact R2|].
        intros rest out Ty. cbn [app]. constructor. econstructor; [exact G|]. constructor. exact Ty.
    - do 3 eexists. split; [reflexivity|]. split; [exact R1|]. intros rest out Ty. cbn [app]. constructor. exact Ty. }
  destruct H1 as (s1 & ws1 & ls1 & E1 & R1 & T1). rewrite E1. cbn [bindr].
  (* enter *)
  set (inner := if indent_children (E a kids) then S d else d).
  set (s2 := if indent_children (E a kids) then enter_indent align (E a kids) s1 else s1).
  assert (R2 : rel 0 inner s2 ws1 ls1).
  { unfold inner, s2. destruct (indent_children (E a kids)) eqn:IC; [|exact R1]. apply enter_ok; [exact R1|]. intros na. destruct (Un na) as [U _]. exact (U IC). }
  (* children *)
  assert (Uk : NA -> (fix all (l : list elem) : Prop := match l with [] => True | n :: r => every_node unaligned n /\ all r end) kids).
  { intros na. destruct (Un na) as [_ U]. exact U. }
  assert (H2 : forall l prev i s ws ls, Forall (fun e => forall d idx s ws ls, printable e -> (NA -> every_node unaligned e) -> rel 0 d s ws ls ->
       exists s' ws' ls', output_node indent_width start_indent max_align_indent indent_children align override concat_space e idx s = Ok s' /\
       rel 0 d s' ws' ls' /\ forall rest out, typeset ws' ls' rest out -> typeset ws ls (flow d e ++ rest) out) l ->
     (fix all (l : list elem) : Prop := match l with [] => True | n :: r => printable n /\ all r end) l ->
     (NA -> (fix all (l : list elem) : Prop := match l with [] => True | n :: r => every_node unaligned n /\ all r end) l) ->
     rel 0 inner s ws ls ->
     exists s' ws' ls', kids_loop a l prev i s = Ok s' /\ rel 0 inner s' ws' ls' /\
       forall rest out, typeset ws' ls' rest out -> typeset ws ls (before_kid a prev l ++ kids_flow a inner l ++ rest) out).
  { clear. induction l as [|m r IHl]; intros prev i s ws ls F Pk Uk R; cbn [kids_loop].
    - do 3 eexists. split; [reflexivity|]. split; [exact R|]. intros rest out Ty. destruct prev; exact Ty.
    - cbv zeta. set (s' := match prev with None => s | Some n => add_whitespace (concat_space a n m) s end).
      set (ws' := match prev with None => ws | Some n => ws ++ [concat_space a n m] end).
      assert (R' : rel 0 inner s' ws' ls). { unfold s', ws'. destruct prev; [apply ws_ok|]; exact R. }
      destruct Pk as [Pm Pr].
      destruct (Forall_inv F inner (Some i) s' ws' ls Pm (fun na => proj1 (Uk na)) R') as (s2 & ws2 & ls2 & E2 & R2 & T2).
      rewrite E2. cbn [bindr]. destruct (IHl (Some m) (S i) s2 ws2 ls2 (Forall_inv_tail F) Pr (fun na => proj2 (Uk na)) R2) as (s3 & ws3 & ls3 & E3 & R3 & T3).
      fold (kids_loop a). rewrite E3. do 3 eexists. split; [reflexivity|]. split; [exact R3|].
      intros rest out Ty. apply T3 in Ty. cbn [kids_flow].
      assert (X : typeset ws' ls ((flow inner m ++ match r with [] => [] | m0 :: _ => [Want (concat_space a m m0)] end ++ kids_flow a inner r) ++ rest) out).
      { rewrite <- !app_assoc. apply T2. unfold before_kid in Ty. destruct r; exact Ty. }
      unfold before_kid, ws' in *. destruct prev; [cbn [app]; constructor; exact X|exact X]. }
  destruct (H2 kids None 0 s2 ws1 ls1 IH Pk Uk R2) as (s3 & ws3 & ls3 & E3 & R3 & T3). rewrite E3. cbn [bindr].
  (* leave *)
  set (s4 := if indent_children (E a kids) then leave_indent s3 else s3).
  assert (R4 : rel 1 d s4 ws3 ls3 /\ (indent_children (E a kids) = false -> rel 0 d s4 ws3 ls3)).
  { unfold s4, inner in *. destruct (indent_children (E a kids)); (split; [|congruence || auto]).
    - apply leave_ok. exact R3.
    - destruct R3 as [A1 A2 A3 A4 A5 A6 A7 A8 A9]. constructor; auto. intros l more X C. destruct (A8 _ _ X C) as (A & [B|(B & _)] & D); [auto|discriminate]. }
  destruct R4 as [R4 R4'].
  destruct (truthy (a_tail a)) eqn:TT.
  - destruct (tail_ok 1 d _ _ _ (a_tail a) (ws_ok _ _ _ _ _ (a_before_tail a) R4)) as (s5 & g & E5 & G & R5). rewrite E5. cbn [bindr].
    do 3 eexists. split; [reflexivity|]. split; [apply ws_ok; exact R5|].
    intros rest out Ty. rewrite app_assoc. rewrite <- !app_assoc in *. rewrite app_assoc. apply T1. apply (T3 (([Want (a_before_tail a); Say true (a_tail a) d None] ++ [Want (a_after a)]) ++ rest)).
    cbn [app]. constructor. econstructor; [exact G|]. constructor. exact Ty.
  - cbn [bindr]. assert (IC : indent_children (E a kids) = false).
    { destruct (indent_children (E a kids)) eqn:IC; [|reflexivity]. exfalso. apply (Tl eq_refl). destruct (a_tail a); [reflexivity|discriminate]. }
    do 3 eexists. split; [reflexivity|]. split; [apply ws_ok; exact (R4' IC)|].
    intros rest out Ty. rewrite <- !app_assoc. rewrite app_assoc. apply T1. apply (T3 (([] ++ [Want (a_after a)]) ++ rest)).
    cbn [app]. constructor. exact Ty.
Qed.
End Proofs.

Lemma isspace_blank : forall is_space p, isspace is_space p = true <-> blank_piece is_space p.
Proof.
  intros is_space p. unfold isspace, blank_piece. rewrite andb_true_iff, forallb_forall. split; intros [A B]; (split; [|exact B]); destruct p; cbn in *; congruence.
Qed.

Lemma strip_ok : forall is_space NA bs ls, Forall2 (same NA) bs ls ->
  exists out, stripped is_space ls out /\ Forall2 (same NA) (strip is_space bs) out.
Proof.
  intros is_space NA bs ls F. induction F as [|b l bs ls S F IH].
  - exists []. split; [left; split; [reflexivity|constructor]|constructor].
  - cbn [strip]. destruct S as [P Q].
    assert (SL : forall x, exists sp, x = sp ++ strip_line is_space x /\ Forall (blank_piece is_space) sp /\
       (forall p ps, strip_line is_space x = p :: ps -> ~ blank_piece is_space p)).
    { induction x as [|p x IHx]; [exists []; repeat split; [constructor|discriminate]|]. cbn [strip_line]. destruct (isspace is_space p) eqn:Ep.
      - destruct IHx as (sp & A & B & C). exists (p :: sp). split; [cbn; f_equal; exact A|]. split; [constructor; [apply isspace_blank; exact Ep|exact B]|exact C].
      - exists []. split; [reflexivity|]. split; [constructor|]. intros p' ps E. injection E; intros; subst. intros X. apply isspace_blank in X. congruence. }
    destruct (SL (b_line b)) as (sp & A & B & C). destruct (strip_line is_space (b_line b)) as [|p ps] eqn:E.
    + destruct IH as (out & IH1 & IH2). exists out. split; [|exact IH2].
      assert (BL : Forall (blank_piece is_space) (l_pieces l)). { rewrite <- P, A, app_nil_r. exact B. }
      destruct IH1 as [[-> X]|(fr & i & t & sp' & p & ps & more & E1 & E2 & E3 & E4)].
      * left. split; [reflexivity|constructor; assumption].
      * right. exists (l :: fr), i, t, sp', p, ps, more. split; [rewrite E1; reflexivity|]. split; [exact E2|]. split; [constructor; assumption|exact E4].
    + exists (Line (l_indent l) (l_tails l) (p :: ps) :: ls). split.
      * right. exists [], (l_indent l), (l_tails l), sp, p, ps, ls. split.
        { cbn. f_equal. destruct l as [i t x]. cbn in *. rewrite <- P, A. reflexivity. }
        split; [reflexivity|]. split; [constructor|]. split; [exact B|]. apply (C p ps). reflexivity.
      * constructor; [|exact F]. split; [reflexivity|exact Q].
Qed.

(** ** The text of the lines *)
Fixpoint rtext (ls : list line) : str :=
  match ls with [] => [] | l :: more => match more with [] => [] | _ => rtext more ++ [nl] end ++ concat (l_pieces l) end.

Lemma join_snoc : forall ls l, join_lines (ls ++ [l]) = match ls with [] => [] | _ => join_lines ls ++ [nl] end ++ concat (l_pieces l).
Proof.
  induction ls as [|x ls IH]; intros l; [reflexivity|]. cbn [app join_lines]. destruct (ls ++ [l]) as [|y r] eqn:E; [destruct ls; discriminate|].
  rewrite <- E. rewrite IH. destruct ls as [|z ls]; [cbn; rewrite <- app_assoc; reflexivity|]. cbn [join_lines]. rewrite <- !app_assoc. cbn. rewrite <- ?app_assoc. reflexivity.
Qed.
Lemma join_rev : forall ls, join_lines (rev ls) = rtext ls.
Proof.
  induction ls as [|l ls IH]; [reflexivity|]. cbn [rev rtext]. rewrite join_snoc, IH. destruct ls; [reflexivity|]. cbn [rev].
  destruct (rev ls ++ [l0]) eqn:E; [destruct (rev ls); discriminate|reflexivity].
Qed.

Lemma concat_snoc : forall (l : list str) x, concat (l ++ [x]) = concat l ++ x.
Proof. intros. rewrite concat_app. cbn. rewrite app_nil_r. reflexivity. Qed.

Lemma rtext_space : forall iw si d g ls, ls <> [] -> rtext (add_space iw si d g ls) = rtext ls ++ g.
Proof.
  intros iw si d. induction g as [|c g IH]; intros ls N; [cbn; rewrite app_nil_r; reflexivity|]. cbn [add_space].
  destruct (Ascii.eqb c nl) eqn:C.
  - rewrite IH by discriminate. apply Ascii.eqb_eq in C. subst c. cbn [rtext l_pieces concat]. destruct ls; [congruence|]. rewrite app_nil_r, <- app_assoc. reflexivity.
  - destruct ls as [|l more]; [congruence|]. rewrite IH by discriminate. cbn [rtext l_pieces]. rewrite concat_snoc, <- !app_assoc. reflexivity.
Qed.
Lemma rtext_piece : forall iw si t x d o ls, ls <> [] -> rtext (add_piece iw si t x d o ls) = rtext ls ++ x.
Proof. intros iw si t x d o ls N. destruct ls as [|l more]; [congruence|]. cbn [add_piece rtext l_pieces]. rewrite concat_snoc, <- app_assoc. reflexivity. Qed.
Lemma piece_some : forall iw si t x d o ls, ls <> [] -> add_piece iw si t x d o ls <> [].
Proof. intros. destruct ls; [congruence|discriminate]. Qed.

Definition full (ev : event) : Prop := match ev with Want _ => True | Say _ t _ _ => t <> [] end.

Lemma typeset_text : forall iw si ws ls evs out, typeset iw si ws ls evs out -> ls <> [] -> Forall full evs ->
  exists t, rtext out = rtext ls ++ t /\
    match snd (sections (items evs)) with
    | [] => t = []
    | _ => exists g s, t = g ++ s /\ strongest (ws ++ fst (sections (items evs))) g /\ joined (snd (sections (items evs))) s
    end.
Proof.
  intros iw si ws ls evs out T. induction T as [ws ls|ws ls w r out T IH|ws ls t text depth own g r out G T IH]; intros N F.
  - exists []. split; [rewrite app_nil_r; reflexivity|reflexivity].
  - destruct (IH N (Forall_inv_tail F)) as (x & E & S). exists x. split; [exact E|]. cbn [items map sections].
    fold (items r). destruct (sections (items r)) as [w' secs]. cbn [fst snd] in *. destruct secs; [exact S|].
    destruct S as (g & s & A & B & C). exists g, s. split; [exact A|]. split; [|exact C]. rewrite <- app_assoc in B. exact B.
  - pose proof (add_space_some iw si depth g ls N) as N1.
    destruct (IH (piece_some iw si t text depth own _ N1) (Forall_inv_tail F)) as (x & E & S).
    rewrite rtext_piece, rtext_space in E by assumption. exists (g ++ text ++ x). split; [rewrite E, <- !app_assoc; reflexivity|].
    cbn [items map sections f_text]. fold (items r). pose proof (Forall_inv F) as TX. cbn in TX. destruct text as [|c text]; [congruence|].
    destruct (sections (items r)) as [w' secs]. cbn [fst snd] in *. exists g, ((c :: text) ++ x). split; [reflexivity|].
    split; [rewrite app_nil_r; exact G|]. destruct secs as [|y secs].
    + subst x. rewrite app_nil_r. constructor.
    + destruct S as (g' & s & -> & B & C). constructor; [exact B|exact C].
Qed.

Lemma secs_app : forall a b, map fst (snd (sections (a ++ b))) = map fst (snd (sections a)) ++ map fst (snd (sections b)).
Proof.
  induction a as [|[w|f] a IH]; intros b; cbn [app sections].
  - reflexivity.
  - specialize (IH b). destruct (sections (a ++ b)), (sections a). exact IH.
  - specialize (IH b). destruct (sections (a ++ b)), (sections a). cbn [snd] in *. destruct (f_text f) as [[|]|]; cbn [snd map fst app]; rewrite ?IH; auto.
Qed.

Lemma filter_app' : forall A (f : A -> bool) a b, filter f (a ++ b) = filter f a ++ filter f b.
Proof. intros. apply filter_app. Qed.

Lemma texts_eq : forall a kids, texts (E a kids) = (if has_head a then [a_head a] else []) ++ flat_map texts kids ++ (if has_tail a then [Ok (a_tail a)] else []).
Proof. reflexivity. Qed.

Section Flow.
Variable indent_children : elem -> bool.
Variable override : elem -> option nat.
Variable concat_space : attrs -> elem -> elem -> str.

Lemma flow_full : forall e d, Forall full (flow indent_children override concat_space d e).
Proof.
  induction e as [a kids IH] using elem_ind2. intros d. rewrite flow_eq. cbv zeta. generalize (if indent_children (E a kids) then S d else d). intros inner.
  assert (K : Forall full (kids_flow indent_children override concat_space a inner kids)).
  { induction IH as [|n r Hn Hr IHr]; [constructor|]. cbn [kids_flow]. apply Forall_app. split; [apply Hn|]. apply Forall_app. split; [|exact IHr].
    destruct r; [constructor|]. repeat constructor. }
  apply Forall_app. split; [repeat constructor|]. apply Forall_app. split.
  { destruct (truthy (head_text a)) eqn:T; [|constructor]. constructor; [destruct (head_text a); [discriminate|cbn; discriminate]|].
    destruct kids, (a_tail a); repeat constructor. }
  apply Forall_app. split; [exact K|]. apply Forall_app. split; [|repeat constructor].
  destruct (truthy (a_tail a)) eqn:T; [|constructor]. constructor; [exact Logic.I|]. constructor; [|constructor]. destruct (a_tail a); [discriminate|cbn; discriminate].
Qed.

Lemma items_app : forall a b, items (a ++ b) = items a ++ items b.
Proof. intros. apply map_app. Qed.

Lemma said_texts : forall e d ts, proper e -> Forall2 is_text (texts e) ts ->
  map fst (snd (sections (items (flow indent_children override concat_space d e)))) = filter truthy ts.
Proof.
  induction e as [a kids IH] using elem_ind2. intros d ts Pr F. rewrite flow_eq. cbv zeta. generalize (if indent_children (E a kids) then S d else d). intros inner.
  cbn [proper] in Pr. destruct Pr as (P1 & P2 & P3). rewrite texts_eq in F.
  apply Forall2_app_inv_l in F. destruct F as (t1 & t' & F1 & F & ->). apply Forall2_app_inv_l in F. destruct F as (t2 & t3 & F2 & F3 & ->).
  rewrite !items_app, !secs_app, !filter_app'.
  assert (K : map fst (snd (sections (items (kids_flow indent_children override concat_space a inner kids)))) = filter truthy t2).
  { clear F1 F3 P1 P2. revert t2 F2. induction IH as [|n r Hn Hr IHr]; intros t2 F2.
    - inversion F2. reflexivity.
    - cbn [flat_map] in F2. apply Forall2_app_inv_l in F2. destruct F2 as (u & v & U & V & ->). destruct P3 as [Pn Pr].
      cbn [kids_flow]. rewrite !items_app, !secs_app, filter_app'. rewrite (Hn inner u Pn U), (IHr Pr v V). destruct r; reflexivity. }
  rewrite K. cbn [items map sections snd fst app]. rewrite app_nil_r.
  assert (H1 : map fst (snd (sections (items (if truthy (head_text a)
          then Say false (head_text a) d (override (E a kids)) :: match kids, a_tail a with [], [] => [] | _, _ => [Want (a_after_head a)] end
          else [])))) = filter truthy t1).
  { destruct (has_head a) eqn:HH.
    - inversion F1 as [|x y l l' X Y]; subst. inversion Y; subst. unfold is_text in X. unfold head_text. rewrite X. destruct y as [|c y]; [reflexivity|].
      cbn [truthy filter]. cbn [items map sections f_text]. destruct kids, (a_tail a); reflexivity.
    - inversion F1; subst. unfold head_text. rewrite (P1 eq_refl). reflexivity. }
  rewrite H1. f_equal. f_equal.
  destruct (has_tail a) eqn:HT.
  - inversion F3 as [|x y l l' X Y]; subst. inversion Y; subst. unfold is_text in X. injection X as X. rewrite X. destruct y as [|c y]; reflexivity.
  - inversion F3; subst. rewrite (P2 eq_refl). reflexivity.
Qed.
End Flow.
