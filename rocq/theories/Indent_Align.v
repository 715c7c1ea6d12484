(** C138: alignment of the lines in a block with what is on its first line. *)
From Coq Require Import String Ascii List Arith Bool Lia.
From Verif Require Import Base Element_Model Element_Spec Element_Proofs Indent_Model Indent_Spec Indent_Proofs Indent_Props.
Import ListNotations.
Open Scope nat_scope.

(** ** Specification *)
(** A document as a sequence: whitespace requests, heads with their index in the parent and maybe an own indent, tails, and where
    the contents of an indenting node begin and end. *)
Inductive act := AWant (w : str) | AHead (text : str) (index own : option nat) | ATail (text : str) | AEnter (indices : list nat) | ALeave.

Section Acts.
Variable indent_children : elem -> bool.
Variable align : elem -> list nat.
Variable override : elem -> option nat.
Variable concat_space : attrs -> elem -> elem -> str.
Fixpoint acts (index : option nat) (e : elem) : list act :=
  match e with
  | E a kids =>
      AWant (a_before a)
      :: (if truthy (head_text a)
          then AHead (head_text a) index (override e) :: match kids, a_tail a with [], [] => [] | _, _ => [AWant (a_after_head a)] end
          else [])
      ++ (if indent_children e then [AEnter (align e)] else [])
      ++ (fix children (l : list elem) (prev : option elem) (i : nat) : list act :=
            match l with
            | [] => []
            | m :: r => match prev with None => [] | Some n => [AWant (concat_space a n m)] end ++ acts (Some i) m ++ children r (Some m) (S i)
            end) kids None 0
      ++ (if indent_children e then [ALeave] else [])
      ++ (if truthy (a_tail a) then [AWant (a_before_tail a); ATail (a_tail a)] else [])
      ++ [AWant (a_after a)]
  end.
End Acts.

(** In this node (if it does not indent its contents itself) no node that has a head is child number [i] of another node. *)
Fixpoint unmarked (ic : elem -> bool) (i : nat) (e : elem) : Prop :=
  match e with
  | E a kids => ic e = true \/
      (fix go (k : nat) (l : list elem) : Prop :=
         match l with [] => True | n :: r => (k <> i \/ head_text (attrs_of n) = []) /\ unmarked ic i n /\ go (S k) r end) 0 kids
  end.

(** Whitespace within a line, whitespace that consists of newlines, and whitespace that is one of these. *)
Definition only_spaces (w : str) : Prop := forall c, In c w -> c = sp.
Definition newline (w : str) : Prop := w <> [] /\ forall c, In c w -> c = nl.
Definition tidy (w : str) : Prop := only_spaces w \/ newline w.
Definition tidy_act (x : act) : Prop := match x with AWant w => tidy w | _ => True end.
Definition in_line (x : act) : Prop := match x with AWant w => only_spaces w | _ => True end.
(** What comes before the first text in a line. *)
Definition silent (x : act) : Prop := match x with AWant w => tidy w | AEnter _ => True | _ => False end.
(** The number of open indenting nodes afterwards; None if one ends that began earlier. *)
Fixpoint levels (n : nat) (l : list act) : option nat :=
  match l with
  | [] => Some n
  | AEnter _ :: r => levels (S n) r
  | ALeave :: r => match n with 0 => None | S n => levels n r end
  | _ :: r => levels n r
  end.
(** No head in the innermost indenting node (if [n] = 0) is a child with this index. *)
Fixpoint without (i n : nat) (l : list act) : Prop :=
  match l with
  | [] => True
  | AEnter _ :: r => without i (S n) r
  | ALeave :: r => match n with 0 => False | S n => without i n r end
  | AHead _ (Some j) _ :: r => (n = 0 -> j <> i) /\ without i n r
  | _ :: r => without i n r
  end.
(** Where a line begins: after a newline, or at the start of the document. *)
Definition begins_line (p : list act) : Prop :=
  (exists p0 w pre, p = p0 ++ AWant w :: pre /\ newline w /\ Forall silent pre) \/ Forall (fun x => x = AWant [] \/ exists ix, x = AEnter ix) p.
(** The texts. *)
Definition spoken (l : list act) : list str := flat_map (fun x => match x with AHead t _ _ => [t] | ATail t => [t] | _ => [] end) l.
(** Pieces of a line: these texts, and single spaces between them. *)
Inductive says : list str -> list str -> Prop :=
| says_nil : says [] []
| says_text t y ts : says y ts -> says (t :: y) (t :: ts)
| says_space y ts : says y ts -> says ([sp] :: y) ts.

(** ** Proofs *)
Lemma says_app y ts y' ts' : says y ts -> says y' ts' -> says (y ++ y') (ts ++ ts').
Proof. intros H H'. induction H; cbn [app]; [exact H'|constructor; assumption|constructor; assumption]. Qed.
Lemma spoken_app l l' : spoken (l ++ l') = spoken l ++ spoken l'.
Proof. unfold spoken. apply flat_map_app. Qed.
Lemma levels_app l l' n : levels n (l ++ l') = match levels n l with Some m => levels m l' | None => None end.
Proof. revert n. induction l as [|x l IH]; intros n; [reflexivity|]. destruct x; cbn [app levels]; try apply IH. destruct n; [reflexivity|apply IH]. Qed.
Lemma newline_not_spaces w : newline w -> ~ only_spaces w.
Proof. intros [N A] S. destruct w as [|c w]; [congruence|]. specialize (A c (or_introl eq_refl)). specialize (S c (or_introl eq_refl)). rewrite A in S. discriminate. Qed.
Lemma newlines_of w : newline w -> newlines w = length w.
Proof.
  intros [_ A]. unfold newlines, occurrences. induction w as [|c w IH]; [reflexivity|]. rewrite (A c (or_introl eq_refl)). cbn [filter]. rewrite Ascii.eqb_refl. cbn [length]. f_equal. apply IH. intros d I. apply A. now right.
Qed.
Lemma no_newlines w : only_spaces w -> newlines w = 0.
Proof.
  intros A. unfold newlines, occurrences. induction w as [|c w IH]; [reflexivity|]. rewrite (A c (or_introl eq_refl)). cbn [filter]. change (Ascii.eqb nl sp) with false. cbn iota. apply IH. intros d I. apply A. now right.
Qed.
Lemma collapse_spaces ws : Forall only_spaces ws -> only_spaces (collapse_whitespace ws).
Proof.
  intros F. destruct ws as [|w r]; [intros c []|]. pose proof (strongest_in _ _ (strongest_collapse (w :: r)) ltac:(discriminate)) as I. rewrite Forall_forall in F. apply F. exact I.
Qed.
Lemma collapse_newline ws : Forall tidy ws -> Exists newline ws -> newline (collapse_whitespace ws).
Proof.
  intros F X. assert (N : ws <> []) by (intros ->; inversion X). pose proof (strongest_collapse ws) as G. set (g := collapse_whitespace ws) in *. pose proof (strongest_in _ _ G N) as I.
  rewrite Forall_forall in F. destruct (F g I) as [S|S]; [|exact S]. exfalso. apply Exists_exists in X as (w & J & W).
  destruct G as [[E _]|(l1 & l2 & E & A & B)]; [congruence|]. pose proof (no_newlines g S) as Z. pose proof (newlines_of w W) as L. destruct W as [NW AW]. assert (length w <> 0) by (destruct w; [congruence|discriminate]).
  assert (ST : stronger w g) by (left; lia). rewrite E in J. apply in_app_or in J as [J|[J|J]].
  - destruct (A w J) as [Q|[Q _]]; lia.
  - subst w. lia.
  - exact (B w J ST).
Qed.

Section Align.
Variables iw si ma : nat.
Variable ic : elem -> bool.
Variable align : elem -> list nat.
Variable ov : elem -> option nat.
Variable cs : attrs -> elem -> elem -> str.
Notation cur := (current_indent si).
Notation acts := (acts ic align ov cs).

Definition run_act (x : act) (s : state) : res state :=
  match x with
  | AWant w => Ok (add_whitespace w s)
  | AHead t i o => output_head iw si ma t i o s
  | ATail t => output_tail iw si ma t s
  | AEnter ix => Ok (State (i_output s) (i_stack s) (Level ix [] :: i_indenters s) (i_ded s) (i_ws s) (i_can s))
  | ALeave => Ok (leave_indent s)
  end.
Fixpoint run (l : list act) (s : state) : res state := match l with [] => Ok s | x :: r => let! s := run_act x s in run r s end.
Lemma run_app l l' s : run (l ++ l') s = let! s := run l s in run l' s.
Proof. revert s. induction l as [|x l IH]; intros s; [reflexivity|]. cbn [app run]. destruct (run_act x s); cbn [bindr]; [apply IH|reflexivity]. Qed.

Lemma run_node : forall e idx s, printable ic e -> output_node iw si ma ic align ov cs e idx s = run (acts idx e) s.
Proof.
  induction e as [a kids IH] using elem_ind2. intros idx s P. cbn [printable] in P. destruct P as ((h & Hh) & _ & Pk).
  assert (K : forall l prev i s, Forall (fun e => forall idx s, printable ic e -> output_node iw si ma ic align ov cs e idx s = run (acts idx e) s) l ->
    (fix all (l : list elem) : Prop := match l with [] => True | n :: r => printable ic n /\ all r end) l ->
    (fix children (l : list elem) (prev : option elem) (i : nat) (s : state) : res state :=
           match l with
           | [] => Ok s
           | m :: r =>
               let s := match prev with None => s | Some n => add_whitespace (cs a n m) s end in
               let! s := output_node iw si ma ic align ov cs m (Some i) s in
               children r (Some m) (S i) s
           end) l prev i s =
    run ((fix children (l : list elem) (prev : option elem) (i : nat) : list act :=
            match l with
            | [] => []
            | m :: r => match prev with None => [] | Some n => [AWant (cs a n m)] end ++ acts (Some i) m ++ children r (Some m) (S i)
            end) l prev i) s).
  { clear. induction l as [|m r IHl]; intros prev i s F P; [reflexivity|]. destruct P as [Pm Pr]. pose proof (Forall_inv F) as Fm. pose proof (Forall_inv_tail F) as Fr. cbv zeta.
    destruct prev as [n|]; cbn [app run run_act bindr]; rewrite run_app, <- (Fm (Some i) _ Pm); (match goal with |- bindr ?x _ = _ => destruct x; cbn [bindr]; [apply IHl; assumption|reflexivity] end). }
  cbn [output_node Indent_Align.acts]. unfold head_text. rewrite Hh. cbn [bindr run run_act]. rewrite run_app.
  assert (H1 : (if truthy h then
          let! s := output_head iw si ma h idx (ov (E a kids)) (add_whitespace (a_before a) s) in
          Ok (if truthy (a_tail a) || negb (Nat.eqb (length kids) 0) then add_whitespace (a_after_head a) s else s)
        else Ok (add_whitespace (a_before a) s)) =
     run (if truthy h then AHead h idx (ov (E a kids)) :: match kids, a_tail a with [], [] => [] | _, _ => [AWant (a_after_head a)] end else []) (add_whitespace (a_before a) s)).
  { destruct (truthy h); [|reflexivity]. cbn [run run_act]. destruct (output_head iw si ma h idx (ov (E a kids)) (add_whitespace (a_before a) s)); cbn [bindr]; [|reflexivity]. destruct kids, (a_tail a); reflexivity. }
  rewrite <- H1. match goal with |- bindr ?x _ = _ => destruct x as [s1|]; cbn [bindr]; [|reflexivity] end. clear H1.
  rewrite run_app. assert (H2 : run (if ic (E a kids) then [AEnter (align (E a kids))] else []) s1 = Ok (if ic (E a kids) then enter_indent align (E a kids) s1 else s1)) by (destruct (ic (E a kids)); reflexivity).
  rewrite H2. cbn [bindr]. rewrite run_app, <- (K kids None 0 _ IH Pk). match goal with |- bindr ?x _ = _ => destruct x as [s2|]; cbn [bindr]; [|reflexivity] end.
  rewrite run_app. assert (H3 : run (if ic (E a kids) then [ALeave] else []) s2 = Ok (if ic (E a kids) then leave_indent s2 else s2)) by (destruct (ic (E a kids)); reflexivity).
  rewrite H3. cbn [bindr]. rewrite run_app. set (s3 := if ic (E a kids) then leave_indent s2 else s2).
  destruct (truthy (a_tail a)); cbn [run run_act bindr]; [|reflexivity]. destruct (output_tail iw si ma (a_tail a) (add_whitespace (a_before_tail a) s3)); reflexivity.
Qed.

(** *** A line *)
(** The current line, with its indent; it has some text, and only spaces are pending. *)
Record on_line (s : state) (ind : nat) (line : list str) (r : list block) : Prop := {
  ol_out : i_output s = Blk ind line :: r; ol_some : line <> []; ol_can : i_can s = false; ol_ws : Forall only_spaces (i_ws s) }.

Lemma space_loop_line g s ind line r : only_spaces g -> i_output s = Blk ind line :: r ->
  exists sps, says sps [] /\ space_loop iw si ma g s = Ok (State (Blk ind (line ++ sps) :: r) (i_stack s) (i_indenters s) (i_ded s) (i_ws s) (i_can s)).
Proof.
  revert s line. induction g as [|c g IH]; intros s line S O.
  - exists []. split; [constructor|]. cbn [space_loop]. rewrite app_nil_r, <- O. destruct s; reflexivity.
  - cbn [space_loop]. rewrite (S c (or_introl eq_refl)). change (Ascii.eqb sp nl) with false. cbn iota. unfold append_text. rewrite O. cbn [bindr b_indent b_line].
    destruct (IH (State (Blk ind (line ++ [[sp]]) :: r) (i_stack s) (i_indenters s) (i_ded s) (i_ws s) (i_can s)) (line ++ [[sp]])) as (sps & Y & E); [intros d I; apply S; now right|reflexivity|].
    exists ([sp] :: sps). split; [constructor; exact Y|]. etransitivity; [exact E|]. cbn [i_stack i_indenters i_ded i_ws i_can]. rewrite <- app_assoc. reflexivity.
Qed.
Lemma output_space_line s ind line r : on_line s ind line r ->
  exists sps, says sps [] /\ output_space iw si ma s = Ok (State (Blk ind (line ++ sps) :: r) (i_stack s) (i_indenters s) (i_ded s) [] false).
Proof.
  intros [O N C W]. destruct (space_loop_line _ s ind line r (collapse_spaces _ W) O) as (sps & Y & E). exists sps. split; [exact Y|].
  unfold output_space. rewrite E. cbn [bindr i_output i_stack i_indenters i_ded i_can]. rewrite C. reflexivity.
Qed.

(** The levels that began in this line: [ext] within, then the level itself, whose positions are noted. *)
Definition noted_by (t : option nat) (pos : nat) (ls : list level) : list level :=
  match ls, t with
  | l :: r, Some i => if existsb (Nat.eqb i) (align_indices l) then align_child l i pos :: r else l :: r
  | ls, _ => ls
  end.
Lemma head_line t i o s ind line r : on_line s ind line r ->
  exists sps, says sps [] /\ output_head iw si ma t i o s =
    Ok (State (Blk ind (line ++ sps ++ [t]) :: r) (i_stack s) (noted_by i (length (line ++ sps)) (i_indenters s)) (i_ded s) [] false).
Proof.
  intros L. destruct (output_space_line s ind line r L) as (sps & Y & E). exists sps. split; [exact Y|]. unfold output_head. rewrite E. cbn [bindr i_output b_line b_indent i_indenters i_stack i_ded i_ws].
  assert (N : line ++ sps <> []) by (destruct L as [_ N _ _]; intros X; apply app_eq_nil in X as [X _]; congruence).
  rewrite app_assoc. destruct (line ++ sps) as [|p q] eqn:EQ; [congruence|]. destruct (i_indenters s), i; reflexivity.
Qed.
Lemma tail_line t s ind line r : on_line s ind line r ->
  exists sps, says sps [] /\ output_tail iw si ma t s = Ok (State (Blk ind (line ++ sps ++ [t]) :: r) (i_stack s) (i_indenters s) (i_ded s) [] false).
Proof.
  intros L. destruct (output_space_line s ind line r L) as (sps & Y & E). exists sps. split; [exact Y|]. unfold output_tail. rewrite E. cbn [bindr i_can andb]. unfold append_text. cbn [i_output b_indent b_line i_stack i_indenters i_ded i_ws i_can]. rewrite <- app_assoc. reflexivity.
Qed.

(** Acts within a line, [n] levels above the bottom [base]; what is noted for the level on top of [base]. *)
Definition top_noted (noted : list (nat * nat)) (base : list level) : list level :=
  match base with [] => [] | l :: r => Level (align_indices l) (noted ++ align_positions l) :: r end.
Lemma top_noted_nil base : top_noted [] base = base.
Proof. destruct base as [|[ix ps] r]; reflexivity. Qed.
Lemma top_noted_app x y base : top_noted x (top_noted y base) = top_noted (x ++ y) base.
Proof. destruct base as [|[ix ps] r]; [reflexivity|]. cbn [top_noted align_indices align_positions]. rewrite app_assoc. reflexivity. Qed.
Lemma noted_base i pos base : exists noted, noted_by i pos base = top_noted noted base /\ (forall j, i <> Some j -> lookup noted j = None) /\
  (forall j l r, i = Some j -> base = l :: r -> In j (align_indices l) -> lookup noted j = Some pos).
Proof.
  destruct base as [|l r]; [exists []; repeat split; intros; congruence|]. destruct i as [i|].
  - cbn [noted_by]. destruct (existsb (Nat.eqb i) (align_indices l)) eqn:X.
    + exists [(i, pos)]. split; [destruct l; reflexivity|]. split.
      * intros j N. cbn [lookup]. destruct (Nat.eqb_spec i j); [congruence|reflexivity].
      * intros j l' r' [= <-] [= <- <-] _. cbn [lookup]. rewrite Nat.eqb_refl. reflexivity.
    + exists []. rewrite top_noted_nil. split; [reflexivity|]. split; [reflexivity|]. intros j l' r' [= <-] [= <- <-] I. exfalso.
      assert (existsb (Nat.eqb i) (align_indices l) = true) by (apply existsb_exists; exists i; split; [exact I|apply Nat.eqb_refl]). congruence.
  - exists []. rewrite top_noted_nil. repeat split; intros; congruence.
Qed.
Lemma lookup_app x y j : lookup (x ++ y) j = match lookup x j with Some p => Some p | None => lookup y j end.
Proof. induction x as [|[k p] x IH]; [reflexivity|]. cbn [app lookup]. destruct (Nat.eqb k j); [reflexivity|exact IH]. Qed.

Lemma line_run : forall l n n' s ind line r ext base, on_line s ind line r -> Forall in_line l -> levels n l = Some n' -> i_indenters s = ext ++ base -> length ext = n ->
  exists s' more ext' noted, run l s = Ok s' /\ on_line s' ind (line ++ more) r /\ says more (spoken l) /\ i_stack s' = i_stack s /\ i_ded s' = i_ded s /\
    i_indenters s' = ext' ++ top_noted noted base /\ length ext' = n' /\ forall i, without i n l -> lookup noted i = None.
Proof.
  induction l as [|x l IH]; intros n n' s ind line r ext base L F LV I N.
  - injection LV as <-. exists s, [], ext, []. rewrite app_nil_r, top_noted_nil. repeat split; try assumption; try apply L. constructor.
  - pose proof (Forall_inv F) as Fx. apply Forall_inv_tail in F. cbn [run]. destruct x as [w|t i o|t|ix|]; cbn [run_act levels in_line] in *.
    + (* whitespace *)
      cbn [bindr]. destruct (IH n n' (add_whitespace w s) ind line r ext base) as (s' & more & ext' & noted & H); try assumption.
      * destruct L as [O S C W]. constructor; cbn [add_whitespace i_output i_can i_ws]; try assumption. apply Forall_app. split; [exact W|]. constructor; [exact Fx|constructor].
      * exists s', more, ext', noted. exact H.
    + (* head *)
      destruct (head_line t i o s ind line r L) as (sps & Y & E). rewrite E. cbn [bindr].
      set (s1 := State (Blk ind (line ++ sps ++ [t]) :: r) (i_stack s) (noted_by i (length (line ++ sps)) (i_indenters s)) (i_ded s) [] false).
      assert (L1 : on_line s1 ind (line ++ sps ++ [t]) r) by (constructor; [reflexivity|intros X; apply app_eq_nil in X as [_ X]; apply app_eq_nil in X as [_ X]; discriminate|reflexivity|constructor]).
      assert (I1 : exists ext1 noted1, i_indenters s1 = ext1 ++ top_noted noted1 base /\ length ext1 = n /\ forall j, (n = 0 -> i <> Some j) -> lookup noted1 j = None).
      { unfold s1. cbn [i_indenters]. rewrite I. destruct ext as [|e0 ext].
        - cbn [app length] in *. subst n. destruct (noted_base i (length (line ++ sps)) base) as (noted1 & E1 & E2 & _). exists [], noted1. split; [exact E1|]. split; [reflexivity|]. intros j NJ. apply E2. apply NJ. reflexivity.
        - cbn [app noted_by]. exists (match i with Some k => if existsb (Nat.eqb k) (align_indices e0) then align_child e0 k (length (line ++ sps)) :: ext else e0 :: ext | None => e0 :: ext end), [].
          rewrite top_noted_nil. destruct i as [k|]; [destruct (existsb (Nat.eqb k) (align_indices e0))|]; repeat split; exact N. }
      destruct I1 as (ext1 & noted1 & I1 & N1 & Q1).
      destruct (IH n n' s1 ind _ r ext1 (top_noted noted1 base) L1 F LV I1 N1) as (s' & more & ext' & noted & R & L' & Y' & S' & D' & I' & N' & Q').
      exists s', (sps ++ t :: more), ext', (noted ++ noted1). split; [exact R|]. split.
      { replace (line ++ sps ++ t :: more) with ((line ++ sps ++ [t]) ++ more) by (rewrite <- !app_assoc; reflexivity). exact L'. }
      split; [change (spoken (AHead t i o :: l)) with ([] ++ t :: spoken l); apply says_app; [exact Y|constructor; exact Y']|].
      split; [exact S'|]. split; [exact D'|]. split; [rewrite I', top_noted_app; reflexivity|]. split; [exact N'|].
      intros j WJ. rewrite lookup_app. destruct i as [k|]; cbn [without] in WJ.
      * destruct WJ as [WJ1 WJ2]. rewrite (Q' j WJ2). apply Q1. intros Z [= ->]. apply (WJ1 Z). reflexivity.
      * rewrite (Q' j WJ). apply Q1. discriminate.
    + (* tail *)
      destruct (tail_line t s ind line r L) as (sps & Y & E). rewrite E. cbn [bindr].
      set (s1 := State (Blk ind (line ++ sps ++ [t]) :: r) (i_stack s) (i_indenters s) (i_ded s) [] false).
      assert (L1 : on_line s1 ind (line ++ sps ++ [t]) r) by (constructor; [reflexivity|intros X; apply app_eq_nil in X as [_ X]; apply app_eq_nil in X as [_ X]; discriminate|reflexivity|constructor]).
      destruct (IH n n' s1 ind _ r ext base L1 F LV I N) as (s' & more & ext' & noted & R & L' & Y' & S' & D' & I' & N' & Q').
      exists s', (sps ++ t :: more), ext', noted. split; [exact R|]. split.
      { replace (line ++ sps ++ t :: more) with ((line ++ sps ++ [t]) ++ more) by (rewrite <- !app_assoc; reflexivity). exact L'. }
      split; [change (spoken (ATail t :: l)) with ([] ++ t :: spoken l); apply says_app; [exact Y|constructor; exact Y']|]. auto 10.
    + (* enter *)
      cbn [bindr]. set (s1 := State (i_output s) (i_stack s) (Level ix [] :: i_indenters s) (i_ded s) (i_ws s) (i_can s)).
      destruct (IH (S n) n' s1 ind line r (Level ix [] :: ext) base) as (s' & more & ext' & noted & H).
      * destruct L; constructor; assumption.
      * exact F.
      * exact LV.
      * unfold s1. cbn [i_indenters app]. rewrite I. reflexivity.
      * cbn [length]. congruence.
      * exists s', more, ext', noted. exact H.
    + (* leave *)
      destruct n as [|n]; [discriminate|]. destruct ext as [|e0 ext]; [discriminate|]. cbn [bindr]. unfold leave_indent. rewrite I. cbn [app].
      destruct (IH n n' (State (i_output s) (i_stack s) (ext ++ base) (i_ded s) (i_ws s) (i_can s)) ind line r ext base) as (s' & more & ext' & noted & H).
      * destruct L; constructor; assumption.
      * exact F.
      * exact LV.
      * reflexivity.
      * cbn [length] in N. congruence.
      * exists s', more, ext', noted. exact H.
Qed.

(** The position that is noted for an index is that of the last head with it. *)
Lemma noted_last u t i o v s ind line r ix base0 :
  on_line s ind line r -> Forall in_line (u ++ AHead t (Some i) o :: v) -> levels 0 u = Some 0 -> levels 0 v = Some 0 -> without i 0 v -> In i ix ->
  i_indenters s = Level ix [] :: base0 ->
  exists s' mu mv noted, run (u ++ AHead t (Some i) o :: v) s = Ok s' /\ on_line s' ind (line ++ mu ++ t :: mv) r /\ says mu (spoken u) /\ says mv (spoken v) /\
    i_stack s' = i_stack s /\ i_ded s' = i_ded s /\ i_indenters s' = Level ix noted :: base0 /\ lookup noted i = Some (length (line ++ mu)) /\
    forall j, without j 0 (u ++ AHead t (Some i) o :: v) -> lookup noted j = None.
Proof.
  intros L F LU LV W IX I. apply Forall_app in F as [FU FV]. apply Forall_inv_tail in FV.
  destruct (line_run u 0 0 s ind line r [] (Level ix [] :: base0) L FU LU I eq_refl) as (s1 & mu & e1 & n1 & R1 & L1 & Y1 & S1 & D1 & I1 & N1 & Q1).
  destruct e1; [|discriminate]. cbn [app top_noted align_indices align_positions] in I1. rewrite app_nil_r in I1.
  destruct (head_line t (Some i) o s1 ind (line ++ mu) r L1) as (sps & Y & E).
  set (s2 := State (Blk ind ((line ++ mu) ++ sps ++ [t]) :: r) (i_stack s1) (noted_by (Some i) (length ((line ++ mu) ++ sps)) (i_indenters s1)) (i_ded s1) [] false) in *.
  assert (L2 : on_line s2 ind ((line ++ mu) ++ sps ++ [t]) r) by (constructor; [reflexivity|intros X; apply app_eq_nil in X as [_ X]; apply app_eq_nil in X as [_ X]; discriminate|reflexivity|constructor]).
  assert (XI : existsb (Nat.eqb i) ix = true) by (apply existsb_exists; exists i; split; [exact IX|apply Nat.eqb_refl]).
  assert (I2 : i_indenters s2 = Level ix ((i, length ((line ++ mu) ++ sps)) :: n1) :: base0).
  { unfold s2. cbn [i_indenters]. rewrite I1. cbn [noted_by align_indices]. rewrite XI. reflexivity. }
  destruct (line_run v 0 0 s2 ind _ r [] _ L2 FV LV I2 eq_refl) as (s3 & mv & e3 & n3 & R3 & L3 & Y3 & S3 & D3 & I3 & N3 & Q3).
  destruct e3; [|discriminate]. cbn [app top_noted align_indices align_positions] in I3.
  exists s3, (mu ++ sps), mv, (n3 ++ (i, length ((line ++ mu) ++ sps)) :: n1). split.
  { rewrite run_app, R1. cbn [bindr run run_act]. rewrite E. cbn [bindr]. exact R3. }
  split; [replace (line ++ (mu ++ sps) ++ t :: mv) with (((line ++ mu) ++ sps ++ [t]) ++ mv) by (rewrite <- !app_assoc; reflexivity); exact L3|].
  split; [rewrite <- (app_nil_r (spoken u)); apply says_app; assumption|]. split; [exact Y3|]. split; [unfold s2 in S3; cbn [i_stack] in S3; congruence|]. split; [unfold s2 in D3; cbn [i_ded] in D3; congruence|].
  split; [exact I3|]. split.
  - rewrite lookup_app, (Q3 i W). cbn [lookup]. rewrite Nat.eqb_refl, <- !app_assoc. reflexivity.
  - assert (K : forall l l' j n, without j n (l ++ l') -> exists m, levels n l = Some m /\ without j n l /\ without j m l').
    { clear. induction l as [|x l IH]; intros l' j n H; [exists n; repeat split; assumption|]. destruct x as [w|t [k|] o|t|ix|]; cbn [app without levels] in *; try (apply IH; exact H).
      - destruct H as [H1 H2]. destruct (IH _ _ _ H2) as (m & A & B & C). exists m. auto.
      - destruct n; [destruct H|]. apply IH. exact H. }
    intros j WJ. destruct (K _ _ _ _ WJ) as (m & A & B & C). rewrite LU in A. injection A as <-. cbn [without] in C. destruct C as [C1 C2].
    rewrite lookup_app, (Q3 j C2). cbn [lookup]. destruct (Nat.eqb_spec i j) as [->|_]; [elim (C1 eq_refl eq_refl)|]. exact (Q1 j B).
Qed.

(** *** New lines *)
Lemma push_some : forall ls b r new cu st, exists st', push_levels iw ma ls (b :: r) new cu st = Ok st'.
Proof.
  induction ls as [|l ls IH]; intros b r new cu st; [exists st; reflexivity|]. cbn [push_levels]. destruct (get_align_pos l); cbn [bindr]; apply IH.
Qed.
Lemma push_last l p b r : get_align_pos l = Some p -> offset b p <= ma ->
  forall ls new cu st, exists st', push_levels iw ma (ls ++ [l]) (b :: r) new cu st = Ok ((cu + offset b p) :: st').
Proof.
  intros G O. induction ls as [|k ls IH]; intros new cu st.
  - cbn [app push_levels]. rewrite G. cbn [bindr]. apply Nat.leb_le in O. rewrite O. eexists. reflexivity.
  - cbn [app push_levels]. destruct (get_align_pos k); cbn [bindr]; apply IH.
Qed.
Lemma create_ok s : i_output s <> [] -> exists st c, create_new_block iw si ma s = Ok (State (Blk (cur st) [] :: i_output s) st [] 0 (i_ws s) c).
Proof.
  intros N. unfold create_new_block. destruct (i_output s) as [|b r] eqn:O; [congruence|].
  destruct (push_some (rev (i_indenters s)) b r (cur (skipn (i_ded s) (i_stack s))) (cur (skipn (i_ded s) (i_stack s))) (skipn (i_ded s) (i_stack s))) as (st & E).
  rewrite E. cbn [bindr]. eexists _, _. reflexivity.
Qed.
Lemma more_newlines k o st ws c : exists c', space_loop iw si ma (repeat nl k) (State (Blk (cur st) [] :: o) st [] 0 ws c) =
  Ok (State (repeat (Blk (cur st) []) k ++ Blk (cur st) [] :: o) st [] 0 ws c').
Proof.
  revert o c. induction k as [|k IH]; intros o c; [exists c; reflexivity|]. cbn [repeat space_loop]. rewrite Ascii.eqb_refl. unfold create_new_block. cbn [i_ded i_stack i_indenters i_output i_ws skipn rev push_levels bindr].
  destruct (IH (Blk (cur st) [] :: o) (match st with [] => false | _ => true end)) as (c' & E). exists c'. etransitivity; [exact E|]. do 2 f_equal.
  clear. induction k as [|k IH]; [reflexivity|]. cbn [repeat app]. f_equal. exact IH.
Qed.
Lemma newline_repeat g : newline g -> exists k, g = repeat nl (S k).
Proof.
  intros [N A]. destruct g as [|c g]; [congruence|]. exists (length g). cbn [repeat]. rewrite (A c (or_introl eq_refl)). f_equal. assert (B : forall d, In d g -> d = nl) by (intros d I; apply A; now right). clear -B.
  induction g as [|d g IH]; [reflexivity|]. cbn [length repeat]. rewrite (B d (or_introl eq_refl)) at 1. f_equal. apply IH. intros x I. apply B. now right.
Qed.
(** A head after a newline. *)
Lemma head_newline t i s : i_output s <> [] -> Forall tidy (i_ws s) -> Exists newline (i_ws s) ->
  exists st o k c, create_new_block iw si ma s = Ok (State (Blk (cur st) [] :: i_output s) st [] 0 (i_ws s) c) /\
    o = repeat (Blk (cur st) []) k ++ i_output s /\ output_head iw si ma t i None s = Ok (State (Blk (cur st) [t] :: o) st [] 0 [] false).
Proof.
  intros N T X. destruct (create_ok s N) as (st & c & E). destruct (newline_repeat _ (collapse_newline _ T X)) as (k & G).
  exists st, (repeat (Blk (cur st) []) k ++ i_output s), k, c. split; [exact E|]. split; [reflexivity|].
  unfold output_head, output_space. rewrite G. cbn [repeat space_loop]. rewrite Ascii.eqb_refl, E. cbn [bindr].
  destruct (more_newlines k (i_output s) st (i_ws s) c) as (c' & E'). rewrite E'. cbn [bindr i_output i_stack i_indenters i_ded i_ws i_can].
  assert (Q : repeat (Blk (cur st) []) k ++ Blk (cur st) [] :: i_output s = Blk (cur st) [] :: repeat (Blk (cur st) []) k ++ i_output s).
  { clear. induction k as [|k IH]; [reflexivity|]. cbn [repeat app]. f_equal. exact IH. }
  rewrite Q. cbn [b_line b_indent app]. destruct i; reflexivity.
Qed.

(** *** What was written stays *)
(** The line is there, with perhaps more text, and lines after it. *)
Definition kept (ind : nat) (line : list str) (r : list block) (s : state) : Prop :=
  (exists extra, i_output s = Blk ind (line ++ extra) :: r /\ i_can s = false /\ line <> []) \/
  (exists extra b more, i_output s = b :: more ++ Blk ind (line ++ extra) :: r).
Lemma kept_create ind line r s s' : kept ind line r s -> create_new_block iw si ma s = Ok s' -> kept ind line r s'.
Proof.
  intros K E. assert (N : i_output s <> []) by (destruct K as [(x & O & _)|(x & b & m & O)]; rewrite O; discriminate).
  destruct (create_ok s N) as (st & c & E'). rewrite E' in E. injection E as <-. right. cbn [i_output]. destruct K as [(x & O & _)|(x & b & m & O)]; rewrite O.
  - exists x, (Blk (cur st) []), []. reflexivity.
  - exists x, (Blk (cur st) []), (b :: m). reflexivity.
Qed.
Lemma kept_append ind line r t s s' : kept ind line r s -> append_text s t = Ok s' -> kept ind line r s'.
Proof.
  intros K E. unfold append_text in E. destruct K as [(x & O & C & N)|(x & b & m & O)]; rewrite O in E; injection E as <-.
  - left. exists (x ++ [t]). cbn [i_output i_can b_indent b_line]. rewrite app_assoc. auto.
  - right. exists x, (Blk (b_indent b) (b_line b ++ [t])), m. reflexivity.
Qed.
Lemma kept_ws ind line r s ws : kept ind line r s -> kept ind line r (State (i_output s) (i_stack s) (i_indenters s) (i_ded s) ws (i_can s)).
Proof. intros K. exact K. Qed.
Lemma kept_loop ind line r g : forall s s', kept ind line r s -> space_loop iw si ma g s = Ok s' -> kept ind line r s'.
Proof.
  induction g as [|c g IH]; intros s s' K E; [injection E as <-; exact K|]. cbn [space_loop] in E. destruct (Ascii.eqb c nl).
  - destruct (create_new_block iw si ma s) as [s1|] eqn:E1; [|discriminate]. cbn [bindr] in E. eapply IH; [|exact E]. eapply kept_create; eassumption.
  - destruct (append_text s [c]) as [s1|] eqn:E1; [|discriminate]. cbn [bindr] in E. eapply IH; [|exact E]. eapply kept_append; eassumption.
Qed.
Lemma kept_space ind line r s s' : kept ind line r s -> output_space iw si ma s = Ok s' -> kept ind line r s'.
Proof.
  intros K E. unfold output_space in E. destruct (space_loop iw si ma (collapse_whitespace (i_ws s)) s) as [s1|] eqn:E1; [|discriminate]. cbn [bindr] in E. injection E as <-. apply (kept_loop _ _ _ _ _ _ K E1).
Qed.
Lemma kept_act ind line r x s s' : kept ind line r s -> run_act x s = Ok s' -> kept ind line r s'.
Proof.
  intros K E. destruct x as [w|t i o|t|ix|]; cbn [run_act] in E.
  - injection E as <-. exact K.
  - unfold output_head in E. destruct (output_space iw si ma s) as [s1|] eqn:E1; [|discriminate]. cbn [bindr] in E. pose proof (kept_space _ _ _ _ _ K E1) as [(x & O & C & N)|(x & b & m & O)]; rewrite O in E; injection E as <-.
    + left. exists (x ++ [t]). cbn [i_output i_can b_line b_indent]. rewrite app_assoc. destruct (line ++ x) eqn:X; [apply app_eq_nil in X as [X _]; congruence|]. auto.
    + right. eexists x, _, m. reflexivity.
  - unfold output_tail in E. destruct (output_space iw si ma s) as [s1|] eqn:E1; [|discriminate]. cbn [bindr] in E. pose proof (kept_space _ _ _ _ _ K E1) as K1.
    destruct (i_can s1 && negb (Nat.eqb (i_ded s1) 0)) eqn:C1.
    + destruct (del_nth (i_ded s1 - 1) (i_stack s1)) as [st|]; [|discriminate]. cbn [bindr] in E. destruct K1 as [(x & O & C & N)|(x & b & m & O)].
      * rewrite C in C1. discriminate.
      * rewrite O in E. cbn [bindr] in E. eapply kept_append; [|exact E]. right. eexists x, _, m. reflexivity.
    + cbn [bindr] in E. eapply kept_append; eassumption.
  - injection E as <-. exact K.
  - injection E as <-. unfold leave_indent. destruct (i_indenters s); exact K.
Qed.
Lemma kept_run ind line r l : forall s s', kept ind line r s -> run l s = Ok s' -> kept ind line r s'.
Proof.
  induction l as [|x l IH]; intros s s' K E; [injection E as <-; exact K|]. cbn [run] in E. destruct (run_act x s) as [s1|] eqn:E1; [|discriminate]. cbn [bindr] in E. eapply IH; [|exact E]. eapply kept_act; eassumption.
Qed.

(** There is always a line, and what is pending is tidy. *)
Definition fine (s : state) : Prop := i_output s <> [] /\ Forall tidy (i_ws s).
Lemma loop_fine g : forall s s', i_output s <> [] -> space_loop iw si ma g s = Ok s' -> i_output s' <> [].
Proof.
  induction g as [|c g IH]; intros s s' N E; [injection E as <-; exact N|]. cbn [space_loop] in E. destruct (Ascii.eqb c nl).
  - destruct (create_ok s N) as (st & c' & E'). rewrite E' in E. cbn [bindr] in E. eapply IH; [|exact E]. discriminate.
  - unfold append_text in E. destruct (i_output s) as [|b r]; [congruence|]. cbn [bindr] in E. eapply IH; [|exact E]. discriminate.
Qed.
Lemma fine_act x s s' : tidy_act x -> fine s -> run_act x s = Ok s' -> fine s'.
Proof.
  intros T [N F] E.
  assert (SP : forall s1, output_space iw si ma s = Ok s1 -> i_output s1 <> [] /\ i_ws s1 = []).
  { intros s1 E1. unfold output_space in E1. destruct (space_loop iw si ma (collapse_whitespace (i_ws s)) s) as [s2|] eqn:E2; [|discriminate]. injection E1 as <-. split; [|reflexivity]. cbn [i_output]. eapply loop_fine; eassumption. }
  destruct x as [w|t i o|t|ix|]; cbn [run_act] in E.
  - injection E as <-. split; [exact N|]. cbn [add_whitespace i_ws]. apply Forall_app. split; [exact F|]. constructor; [exact T|constructor].
  - unfold output_head in E. destruct (output_space iw si ma s) as [s1|] eqn:E1; [|discriminate]. cbn [bindr] in E. destruct (SP s1 eq_refl) as [N1 W1]. destruct (i_output s1); [congruence|]. injection E as <-. split; [discriminate|]. cbn [i_ws]. rewrite W1. constructor.
  - unfold output_tail in E. destruct (output_space iw si ma s) as [s1|] eqn:E1; [|discriminate]. cbn [bindr] in E. destruct (SP s1 eq_refl) as [N1 W1].
    assert (AP : forall s2 s3, i_ws s2 = [] -> append_text s2 t = Ok s3 -> fine s3).
    { intros s2 s3 W2 E2. unfold append_text in E2. destruct (i_output s2); [discriminate|]. injection E2 as <-. split; [discriminate|]. cbn [i_ws]. rewrite W2. constructor. }
    destruct (i_can s1 && negb (Nat.eqb (i_ded s1) 0)).
    + destruct (del_nth (i_ded s1 - 1) (i_stack s1)); [|discriminate]. cbn [bindr] in E. destruct (i_output s1); [discriminate|]. cbn [bindr] in E. eapply AP; [|exact E]. exact W1.
    + cbn [bindr] in E. eapply AP; eassumption.
  - injection E as <-. split; assumption.
  - injection E as <-. unfold leave_indent. destruct (i_indenters s); split; assumption.
Qed.
Lemma fine_run l : forall s s', Forall tidy_act l -> fine s -> run l s = Ok s' -> fine s'.
Proof.
  induction l as [|x l IH]; intros s s' T F E; [injection E as <-; exact F|]. cbn [run] in E. destruct (run_act x s) as [s1|] eqn:E1; [|discriminate]. cbn [bindr] in E. eapply IH; [exact (Forall_inv_tail T)| |exact E]. eapply fine_act; [exact (Forall_inv T)|exact F|exact E1].
Qed.
Lemma silent_run pre : forall s, Forall silent pre -> i_output s <> [] -> Forall tidy (i_ws s) -> Exists newline (i_ws s) ->
  exists s', run pre s = Ok s' /\ i_output s' = i_output s /\ Forall tidy (i_ws s') /\ Exists newline (i_ws s').
Proof.
  induction pre as [|x pre IH]; intros s F N T X; [exists s; auto|]. pose proof (Forall_inv F) as Fx. apply Forall_inv_tail in F. destruct x as [w|t i o|t|ix|]; try destruct Fx; cbn [run run_act bindr].
  - apply (IH (add_whitespace w s)); [exact F|exact N| |]; cbn [add_whitespace i_ws]; [apply Forall_app; split; [exact T|repeat constructor; assumption]|apply Exists_app; left; exact X].
  - apply (IH (add_whitespace w s)); [exact F|exact N| |]; cbn [add_whitespace i_ws]; [apply Forall_app; split; [exact T|constructor; [right; assumption|constructor]]|apply Exists_app; left; exact X].
  - apply (IH (State (i_output s) (i_stack s) (Level ix [] :: i_indenters s) (i_ded s) (i_ws s) (i_can s))); assumption.
Qed.

(** *** The whole document *)
Definition first_state : state := State [Blk si []] [] [] 0 [] false.
Lemma first_head p t i s : begins_line p -> Forall tidy_act p -> run p first_state = Ok s ->
  exists s1 ind r, output_head iw si ma t i None s = Ok s1 /\ on_line s1 ind [t] r /\ ind = cur (skipn (i_ded s1) (i_stack s1)) /\
    ((exists p0 w pre, p = p0 ++ AWant w :: pre /\ newline w /\ Forall silent pre) -> i_indenters s1 = []).
Proof.
  intros B T R.
  assert (A : (exists p0 w pre, p = p0 ++ AWant w :: pre /\ newline w /\ Forall silent pre) ->
    exists s1 ind r, output_head iw si ma t i None s = Ok s1 /\ on_line s1 ind [t] r /\ ind = cur (skipn (i_ded s1) (i_stack s1)) /\ i_indenters s1 = []).
  { intros (p0 & w & pre & -> & W & Q). rewrite run_app in R. destruct (run p0 first_state) as [s0|] eqn:R0; [|discriminate]. cbn [bindr run run_act] in R.
    apply Forall_app in T as [T0 T1]. destruct (fine_run p0 first_state s0 T0) as [N F]; [split; [discriminate|constructor]|exact R0|].
    destruct (silent_run pre (add_whitespace w s0) Q) as (s' & R' & O & F' & X'); [exact N| | |].
    - cbn [add_whitespace i_ws]. apply Forall_app. split; [exact F|]. constructor; [right; exact W|constructor].
    - cbn [add_whitespace i_ws]. apply Exists_app. right. constructor. exact W.
    - rewrite R' in R. injection R as <-. destruct (head_newline t i s') as (st & o & k & c & _ & _ & E); [rewrite O; exact N|exact F'|exact X'|].
      rewrite E. do 3 eexists. split; [reflexivity|]. split; [constructor; [reflexivity|discriminate|reflexivity|constructor]|]. split; reflexivity. }
  destruct B as [B|B].
  - destruct (A B) as (s1 & ind & r & H1 & H2 & H3 & H4). exists s1, ind, r. auto.
  - assert (S : forall p s0 s, Forall (fun x => x = AWant [] \/ exists ix, x = AEnter ix) p -> i_output s0 = [Blk si []] -> i_stack s0 = [] -> i_ded s0 = 0 -> Forall (eq []) (i_ws s0) -> run p s0 = Ok s ->
      i_output s = [Blk si []] /\ i_stack s = [] /\ i_ded s = 0 /\ Forall (eq []) (i_ws s)).
    { clear. induction p as [|x p IH]; intros s0 s F O ST D W R; [injection R as <-; auto|]. destruct (Forall_inv F) as [->|(ix & ->)]; cbn [run run_act bindr] in R; apply Forall_inv_tail in F.
      - eapply (IH (add_whitespace [] s0)); try eassumption. cbn [add_whitespace i_ws]. apply Forall_app. split; [exact W|repeat constructor].
      - eapply (IH (State (i_output s0) (i_stack s0) (Level ix [] :: i_indenters s0) (i_ded s0) (i_ws s0) (i_can s0))); eassumption. }
    destruct (S p first_state s B eq_refl eq_refl eq_refl ltac:(constructor) R) as (O & ST & D & W).
    assert (G : collapse_whitespace (i_ws s) = []).
    { destruct (i_ws s) as [|w r] eqn:E; [reflexivity|]. rewrite <- E in *. pose proof (strongest_in _ _ (strongest_collapse (i_ws s)) ltac:(rewrite E; discriminate)) as I. rewrite Forall_forall in W. symmetry. apply W. exact I. }
    unfold output_head, output_space. rewrite G. cbn [space_loop bindr i_output i_stack i_indenters i_ded i_can i_ws]. rewrite O. cbn [b_line b_indent app].
    do 3 eexists. split; [reflexivity|]. split; [constructor; [reflexivity|discriminate|reflexivity|constructor]|]. cbn [i_ded i_stack i_indenters]. rewrite ST, D. split; [reflexivity|].
    intros H. exfalso. destruct H as (p0 & w & pre & -> & W' & _). rewrite Forall_forall in B. destruct (B (AWant w)) as [[= ->]|(ix & [=])]; [apply in_or_app; right; now left|]. destruct W'. congruence.
Qed.

Lemma rev_repeat {X} (x : X) k : rev (repeat x k) = repeat x k.
Proof. induction k as [|k IH]; [reflexivity|]. cbn [repeat rev]. rewrite IH, <- repeat_cons. reflexivity. Qed.
Lemma strip_at is_space b p q : b_line b = p :: q -> isspace is_space p = false -> forall xs ys, exists xs', strip is_space (xs ++ b :: ys) = xs' ++ b :: ys.
Proof.
  intros L S xs ys. induction xs as [|x xs IH].
  - exists []. destruct b as [bi bl]. cbn [b_line] in L. subst bl. cbn [app strip b_line strip_line b_indent]. rewrite S. reflexivity.
  - cbn [app strip]. destruct (strip_line is_space (b_line x)); [exact IH|]. eexists (_ :: xs). reflexivity.
Qed.
Lemma offset_concat ind x t y : offset (Blk ind (x ++ t :: y)) (length x) = length (concat x).
Proof.
  unfold offset. cbn [b_line]. rewrite firstn_app, firstn_all, Nat.sub_diag. cbn [firstn]. rewrite app_nil_r. clear.
  induction x as [|a x IH]; [reflexivity|]. cbn [map list_sum fold_right concat]. unfold list_sum in *. cbn [fold_right]. rewrite IH, app_length. reflexivity.
Qed.

(** What is written, in terms of the sequence.  [t1] is the first text in a line; [AEnter ix] begins the contents of a node in that line, that goes on until a
    newline comes before [hd]; in between, [t] is the last head that is a child with the index [i]. *)
Lemma column : forall is_space s0 D p t1 i1 mid ix u t i o v ws hd j rest n ix1 ix2,
  printable ic D -> Forall tidy_act (acts None D) ->
  acts None D = p ++ AHead t1 i1 None :: mid ++ AEnter ix :: (u ++ AHead t (Some i) o :: v) ++ ws ++ AHead hd j None :: rest ->
  begins_line p -> isspace is_space t1 = false -> Forall in_line mid -> levels 0 mid = Some n ->
  Forall in_line (u ++ AHead t (Some i) o :: v) -> levels 0 u = Some 0 -> levels 0 v = Some 0 ->
  ix = ix1 ++ i :: ix2 -> (forall k, In k ix1 -> without k 0 (u ++ AHead t (Some i) o :: v)) -> without i 0 v ->
  (forall x, In x ws -> exists w, x = AWant w) -> (exists w, In (AWant w) ws /\ newline w) ->
  exists front ind x y k col back, says x (t1 :: spoken mid ++ spoken u) /\ says y (spoken v) /\
    indenter_write iw si ma ic align ov cs is_space s0 D =
      Ok (front ++ (repeat sp ind ++ concat x ++ t ++ concat y ++ [nl]) ++ concat (repeat (repeat sp col ++ [nl]) k) ++ repeat sp col ++ hd ++ back) /\
    (length (concat x) <= ma -> col = ind + length (concat x)) /\
    (ma < length (concat x) -> (exists p0 w pre, p = p0 ++ AWant w :: pre /\ newline w /\ Forall silent pre) -> n = 0 -> col = ind + iw).
Proof.
  intros is_space s0 D p t1 i1 mid ix u t i o v ws hd j rest n ix1 ix2 P T A B SP1 FM LM FI LU LV EX W1 W2 WS NL.
  destruct (write_core False iw si ma ic align ov cs is_space s0 D P ltac:(tauto)) as (_ & _ & bs & W & _).
  unfold indenter_write in *. change (create_new_block iw si ma (State [] [] [] 0 [] (i_can s0))) with (Ok first_state) in *. cbn [bindr] in *.
  rewrite run_node in * by exact P. destruct (run (acts None D) first_state) as [sF|] eqn:R; [|discriminate]. cbn [bindr] in *. clear W bs.
  rewrite A in R, T. apply Forall_app in T as [TP T]. rewrite run_app in R. destruct (run p first_state) as [s|] eqn:RP; [|discriminate]. cbn [bindr run run_act] in R.
  destruct (first_head p t1 i1 s B TP RP) as (s1 & ind & r & E1 & L1 & G1 & I1). rewrite E1 in R. cbn [bindr] in R.
  rewrite run_app in R. destruct (line_run mid 0 n s1 ind [t1] r [] (i_indenters s1) L1 FM LM eq_refl eq_refl) as (s2 & m2 & e2 & n2 & R2 & L2 & Y2 & S2 & D2 & I2 & N2 & _).
  rewrite R2 in R. cbn [bindr run run_act] in R. set (s3 := State (i_output s2) (i_stack s2) (Level ix [] :: i_indenters s2) (i_ded s2) (i_ws s2) (i_can s2)) in *.
  assert (L3 : on_line s3 ind ([t1] ++ m2) r) by (destruct L2; constructor; assumption).
  rewrite run_app in R. assert (IX : In i ix) by (rewrite EX; apply in_or_app; right; now left).
  destruct (noted_last u t i o v s3 ind _ r ix (i_indenters s2) L3 FI LU LV W2 IX eq_refl) as (s4 & mu & mv & nt & R4 & L4 & YU & YV & S4 & D4 & I4 & K4 & Q4).
  rewrite R4 in R. cbn [bindr] in R. rewrite run_app in R.
  assert (RW : exists s5, run ws s4 = Ok s5 /\ i_output s5 = i_output s4 /\ i_stack s5 = i_stack s4 /\ i_ded s5 = i_ded s4 /\ i_indenters s5 = i_indenters s4 /\ Forall tidy (i_ws s5) /\ Exists newline (i_ws s5)).
  { assert (T4 : Forall tidy (i_ws s4)) by (eapply Forall_impl; [|apply (ol_ws _ _ _ _ L4)]; intros w Q; left; exact Q).
    assert (TW : Forall tidy_act ws).
    { apply Forall_inv_tail in T. apply Forall_app in T as [_ T]. apply Forall_inv_tail in T. apply Forall_app in T as [_ T]. apply Forall_app in T as [T _]. exact T. }
    assert (X : Exists newline (i_ws s4) \/ exists w, In (AWant w) ws /\ newline w) by (right; exact NL). clear -T4 TW WS X. revert s4 T4 X. induction ws as [|x ws IH]; intros s4 T4 X.
    - exists s4. repeat split; try assumption. destruct X as [X|(w & [] & _)]. exact X.
    - destruct (WS x (or_introl eq_refl)) as (w & ->). cbn [run run_act bindr].
      destruct (IH (fun y Hy => WS y (or_intror Hy)) (Forall_inv_tail TW) (add_whitespace w s4)) as (s5 & H).
      + cbn [add_whitespace i_ws]. apply Forall_app. split; [exact T4|]. constructor; [exact (Forall_inv TW)|constructor].
      + cbn [add_whitespace i_ws]. destruct X as [X|(w' & [[= <-]|I] & N)]; [left; apply Exists_app; left; exact X|left; apply Exists_app; right; constructor; exact N|right; exists w'; auto].
      + exists s5. exact H. }
  destruct RW as (s5 & R5 & O5 & S5 & D5 & I5 & T5 & X5). rewrite R5 in R. cbn [bindr run run_act] in R.
  pose proof (ol_out _ _ _ _ L4) as O4.
  destruct (head_newline hd j s5) as (st & out & k & c & EC & EO & EH); [rewrite O5, O4; discriminate|exact T5|exact X5|]. rewrite EH in R. cbn [bindr] in R.
  assert (K6 : kept (cur st) [hd] out (State (Blk (cur st) [hd] :: out) st [] 0 [] false)) by (left; exists []; repeat split; discriminate).
  pose proof (kept_run _ _ _ rest _ _ K6 R) as KF.
  assert (OF : exists more extra, i_output sF = more ++ Blk (cur st) (hd :: extra) :: out).
  { destruct KF as [(x & O & _)|(x & b & m & O)]; rewrite O; [exists [], x; reflexivity|exists (b :: m), x; reflexivity]. }
  destruct OF as (more & extra & OF). set (x := [t1] ++ m2 ++ mu).
  assert (OL : out = repeat (Blk (cur st) []) k ++ Blk ind (x ++ t :: mv) :: r).
  { rewrite EO, O5, O4. unfold x. rewrite <- !app_assoc. reflexivity. }
  destruct (strip_at is_space (Blk ind (x ++ t :: mv)) t1 (m2 ++ mu ++ t :: mv)) with (xs := rev r) (ys := repeat (Blk (cur st) []) k ++ Blk (cur st) (hd :: extra) :: rev more) as (fr & SF).
  { cbn [b_line]. unfold x. rewrite <- !app_assoc. reflexivity. }
  { exact SP1. }
  exists (concat (map block_output fr)), ind, x, mv, k, (cur st), (concat extra ++ [nl] ++ concat (map block_output (rev more))). split.
  { unfold x. change (t1 :: spoken mid ++ spoken u) with ([t1] ++ spoken mid ++ spoken u). apply says_app; [constructor; constructor|]. apply says_app; assumption. }
  split; [exact YV|]. split.
  { f_equal. replace (rev (i_output sF)) with (rev r ++ Blk ind (x ++ t :: mv) :: repeat (Blk (cur st) []) k ++ Blk (cur st) (hd :: extra) :: rev more).
    2: { rewrite OF, OL. rewrite rev_app_distr. cbn [rev]. rewrite rev_app_distr. cbn [rev]. rewrite <- !app_assoc. cbn [app]. do 2 f_equal. rewrite rev_repeat. reflexivity. }
    rewrite SF, map_app, concat_app. f_equal. cbn [map concat]. rewrite map_app, concat_app. unfold block_output at 1. cbn [b_indent b_line]. rewrite concat_app. cbn [concat]. rewrite <- !app_assoc. do 5 f_equal.
    cbn [app]. f_equal. f_equal.
    - clear. induction k as [|k IH]; [reflexivity|]. cbn [repeat map concat]. rewrite IH. reflexivity.
    - cbn [map concat]. unfold block_output at 1. cbn [b_indent b_line concat]. rewrite <- !app_assoc. reflexivity. }
  (* the column *)
  assert (GP : get_align_pos (Level ix nt) = Some (length x)).
  { unfold get_align_pos. cbn [align_indices align_positions]. rewrite EX. clear -Q4 W1 K4. assert (H : forall k, In k ix1 -> lookup nt k = None) by (intros k I; apply Q4, W1, I). clear W1 Q4.
    induction ix1 as [|a l IH]; cbn [app align_pos_loop]; [rewrite K4; unfold x; rewrite <- app_assoc; reflexivity|]. rewrite (H a (or_introl eq_refl)). apply IH. intros k I. apply H. now right. }
  assert (RG : cur (skipn (i_ded s5) (i_stack s5)) = ind) by (rewrite D5, S5, D4, S4; unfold s3; cbn [i_ded i_stack]; rewrite D2, S2; symmetry; exact G1).
  unfold create_new_block in EC. rewrite RG, O5, O4, I5, I4 in EC. cbn [rev] in EC.
  assert (EL : ([t1] ++ m2) ++ mu ++ t :: mv = x ++ t :: mv) by (unfold x; rewrite <- !app_assoc; reflexivity). rewrite EL in EC.
  split.
  - intros LE. destruct (push_last (Level ix nt) (length x) (Blk ind (x ++ t :: mv)) r GP ltac:(rewrite offset_concat; exact LE) (rev (i_indenters s2)) ind ind (skipn (i_ded s5) (i_stack s5))) as (st' & PE).
    rewrite offset_concat in PE. rewrite PE in EC. cbn [bindr] in EC. injection EC; intros; subst st. reflexivity.
  - intros GT BL Z. specialize (I1 BL). rewrite I1 in I2. cbn [top_noted] in I2. subst n. destruct e2; [|discriminate]. rewrite I2 in EC. cbn [rev app push_levels] in EC. rewrite GP in EC. cbn [bindr] in EC. rewrite offset_concat in EC.
    assert (LB : (length (concat x) <=? ma) = false) by (apply Nat.leb_gt; exact GT). rewrite LB in EC. injection EC; intros; subst st. reflexivity.
Qed.

(** *** Nodes *)
Fixpoint kacts (a : attrs) (l : list elem) (prev : option elem) (i : nat) : list act :=
  match l with
  | [] => []
  | m :: r => match prev with None => [] | Some n => [AWant (cs a n m)] end ++ acts (Some i) m ++ kacts a r (Some m) (S i)
  end.
Definition after_head (idx : option nat) (e : elem) : list act :=
  match e with
  | E a kids =>
      match kids, a_tail a with [], [] => [] | _, _ => [AWant (a_after_head a)] end
      ++ (if ic e then [AEnter (align e)] else []) ++ kacts a kids None 0 ++ (if ic e then [ALeave] else [])
      ++ (if truthy (a_tail a) then [AWant (a_before_tail a); ATail (a_tail a)] else []) ++ [AWant (a_after a)]
  end.
Lemma kacts_eq a l prev i : (fix children (l : list elem) (prev : option elem) (i : nat) : list act :=
            match l with
            | [] => []
            | m :: r => match prev with None => [] | Some n => [AWant (cs a n m)] end ++ acts (Some i) m ++ children r (Some m) (S i)
            end) l prev i = kacts a l prev i.
Proof. revert prev i. induction l as [|m r IH]; intros prev i; [reflexivity|]. cbn [kacts]. rewrite <- IH. reflexivity. Qed.
Lemma acts_head idx e : truthy (head_text (attrs_of e)) = true -> acts idx e = AWant (a_before (attrs_of e)) :: AHead (head_text (attrs_of e)) idx (ov e) :: after_head idx e.
Proof. destruct e as [a kids]. cbn [attrs_of]. intros H. cbn [Indent_Align.acts]. rewrite H, kacts_eq. reflexivity. Qed.
Lemma acts_eq idx a kids : acts idx (E a kids) = AWant (a_before a) ::
  (if truthy (head_text a) then AHead (head_text a) idx (ov (E a kids)) :: match kids, a_tail a with [], [] => [] | _, _ => [AWant (a_after_head a)] end else [])
  ++ (if ic (E a kids) then [AEnter (align (E a kids))] else []) ++ kacts a kids None 0 ++ (if ic (E a kids) then [ALeave] else [])
  ++ (if truthy (a_tail a) then [AWant (a_before_tail a); ATail (a_tail a)] else []) ++ [AWant (a_after a)].
Proof. cbn [Indent_Align.acts]. rewrite kacts_eq. reflexivity. Qed.
Lemma kacts_app a l l' : forall prev i, kacts a (l ++ l') prev i = kacts a l prev i ++ kacts a l' (match rev l with [] => prev | x :: _ => Some x end) (i + length l).
Proof.
  induction l as [|m r IH]; intros prev i; [cbn [app kacts rev length]; rewrite Nat.add_0_r; reflexivity|].
  cbn [app kacts rev length]. rewrite IH, <- !app_assoc. do 3 f_equal. rewrite Nat.add_succ_r. f_equal. destruct (rev r); reflexivity.
Qed.
Lemma levels_act x l n : match x with AWant _ | AHead _ _ _ | ATail _ => True | _ => False end -> levels n (x :: l) = levels n l.
Proof. destruct x; intros []; reflexivity. Qed.
Lemma levels_acts : forall e idx n l, levels n (acts idx e ++ l) = levels n l.
Proof.
  induction e as [a kids IH] using elem_ind2. intros idx n l. rewrite acts_eq.
  assert (K : forall ks prev i n l, Forall (fun e => forall idx n l, levels n (acts idx e ++ l) = levels n l) ks -> levels n (kacts a ks prev i ++ l) = levels n l).
  { clear. induction ks as [|m r IHk]; intros prev i n l F; [reflexivity|]. cbn [kacts]. rewrite <- !app_assoc. destruct prev; cbn [app levels]; rewrite (Forall_inv F), IHk; try reflexivity; exact (Forall_inv_tail F). }
  cbn [app levels]. rewrite <- !app_assoc. assert (H : forall n l, levels n ((if truthy (head_text a) then AHead (head_text a) idx (ov (E a kids)) :: match kids, a_tail a with [], [] => [] | _, _ => [AWant (a_after_head a)] end else []) ++ l) = levels n l).
  { intros. destruct (truthy (head_text a)); [|reflexivity]. cbn [app levels]. destruct kids, (a_tail a); reflexivity. }
  rewrite H. destruct (ic (E a kids)); cbn [app levels]; rewrite (K kids None 0 _ _ IH); cbn [app levels]; destruct (truthy (a_tail a)); reflexivity.
Qed.
Lemma without_deep i : forall e idx n l, without i (S n) l -> without i (S n) (acts idx e ++ l).
Proof.
  induction e as [a kids IH] using elem_ind2. intros idx n l W. rewrite acts_eq.
  assert (K : forall ks prev k n l, Forall (fun e => forall idx n l, without i (S n) l -> without i (S n) (acts idx e ++ l)) ks -> without i (S n) l -> without i (S n) (kacts a ks prev k ++ l)).
  { clear. induction ks as [|m r IHk]; intros prev k n l F W; [exact W|]. cbn [kacts]. rewrite <- !app_assoc. assert (X : without i (S n) (acts (Some k) m ++ kacts a r (Some m) (S k) ++ l)) by (apply (Forall_inv F), IHk; [exact (Forall_inv_tail F)|exact W]). destruct prev; exact X. }
  cbn [app without]. rewrite <- !app_assoc. assert (H : forall n l, without i (S n) l -> without i (S n) ((if truthy (head_text a) then AHead (head_text a) idx (ov (E a kids)) :: match kids, a_tail a with [], [] => [] | _, _ => [AWant (a_after_head a)] end else []) ++ l)).
  { clear. intros n l W. destruct (truthy (head_text a)); [|exact W]. destruct idx; [|destruct kids, (a_tail a); exact W]. split; [discriminate|]. destruct kids, (a_tail a); exact W. }
  apply H. assert (ET : forall n, without i n l -> without i n ((if truthy (a_tail a) then [AWant (a_before_tail a); ATail (a_tail a)] else []) ++ [AWant (a_after a)] ++ l)) by (intros; destruct (truthy (a_tail a)); assumption).
  destruct (ic (E a kids)); cbn [app without]; (apply K; [exact IH|]); cbn [app without]; apply ET, W.
Qed.
Lemma without_acts i : forall e idx n l, unmarked ic i e -> idx <> Some i \/ head_text (attrs_of e) = [] -> without i n l -> without i n (acts idx e ++ l).
Proof.
  induction e as [a kids IH] using elem_ind2. intros idx n l U H W. rewrite acts_eq. cbn [attrs_of] in H.
  assert (ET : forall n, without i n l -> without i n ((if truthy (a_tail a) then [AWant (a_before_tail a); ATail (a_tail a)] else []) ++ [AWant (a_after a)] ++ l)) by (intros; destruct (truthy (a_tail a)); assumption).
  cbn [app without]. rewrite <- !app_assoc.
  assert (G : forall l, without i n l -> without i n ((if truthy (head_text a) then AHead (head_text a) idx (ov (E a kids)) :: match kids, a_tail a with [], [] => [] | _, _ => [AWant (a_after_head a)] end else []) ++ l)).
  { intros l' W'. destruct H as [H| ->]; [|exact W']. destruct (truthy (head_text a)); [|exact W']. destruct idx as [k|]; [|destruct kids, (a_tail a); exact W']. split; [intros _ ->; congruence|]. destruct kids, (a_tail a); exact W'. }
  apply G. destruct (ic (E a kids)) eqn:IC.
  - cbn [app without]. assert (K : forall ks prev k l, without i (S n) l -> without i (S n) (kacts a ks prev k ++ l)).
    { clear. induction ks as [|m r IHk]; intros prev k l W; [exact W|]. cbn [kacts]. rewrite <- !app_assoc. assert (X : without i (S n) (acts (Some k) m ++ kacts a r (Some m) (S k) ++ l)) by (apply without_deep, IHk, W). destruct prev; exact X. }
    apply K. cbn [app without]. apply ET, W.
  - cbn [app]. cbn [unmarked] in U. destruct U as [U|U]; [rewrite IC in U; discriminate|].
    assert (K : forall ks prev k l, Forall (fun e => forall idx n l, unmarked ic i e -> idx <> Some i \/ head_text (attrs_of e) = [] -> without i n l -> without i n (acts idx e ++ l)) ks ->
      (fix go (k : nat) (l : list elem) : Prop := match l with [] => True | n :: r => (k <> i \/ head_text (attrs_of n) = []) /\ unmarked ic i n /\ go (S k) r end) k ks ->
      without i n l -> without i n (kacts a ks prev k ++ l)).
    { clear. induction ks as [|m r IHk]; intros prev k l F U W; [exact W|]. destruct U as (U1 & U2 & U3). cbn [kacts]. rewrite <- !app_assoc.
      assert (X : without i n (acts (Some k) m ++ kacts a r (Some m) (S k) ++ l)) by (apply (Forall_inv F); [exact U2|destruct U1 as [U1|U1]; [left; congruence|right; exact U1]|apply IHk; [exact (Forall_inv_tail F)|exact U3|exact W]]). destruct prev; exact X. }
    apply K; [exact IH|exact U|]. apply ET, W.
Qed.
Lemma in_line_index e k k' : Forall in_line (acts k e) -> Forall in_line (acts k' e).
Proof.
  destruct e as [a kids]. rewrite !acts_eq. intros F. apply Forall_cons_iff in F as [F0 F]. constructor; [exact F0|]. apply Forall_app in F as [F1 F2]. apply Forall_app. split; [|exact F2].
  destruct (truthy (head_text a)); [|constructor]. apply Forall_cons_iff in F1 as [_ F1]. constructor; [exact I|exact F1].
Qed.
Lemma kacts_in_line a l : (forall n, In n l -> Forall in_line (acts None n)) -> (forall x n m y, l = x ++ n :: m :: y -> only_spaces (cs a n m)) ->
  forall prev i, (forall n m r, prev = Some n -> l = m :: r -> only_spaces (cs a n m)) -> Forall in_line (kacts a l prev i).
Proof.
  induction l as [|m r IH]; intros A B prev i C; [constructor|]. cbn [kacts]. apply Forall_app. split.
  - destruct prev as [n|]; [|constructor]. constructor; [|constructor]. exact (C n m r eq_refl eq_refl).
  - apply Forall_app. split; [apply (in_line_index m None), A; now left|]. apply IH.
    + intros n I. apply A. now right.
    + intros x n m' y E. apply (B (m :: x) n m' y). rewrite E. reflexivity.
    + intros n m' r' [= <-] ->. apply (B [] m m' r'). reflexivity.
Qed.
End Align.

Lemma aligned : forall iw si ma ic align ov cs is_space s0 D p t1 i1 mid q n a before c after d post idx last ix1 ix2,
  let e := E a (before ++ c :: after ++ d :: post) in
  let acts := acts ic align ov cs in
  (* the document *)
  printable ic D -> Forall tidy_act (acts None D) ->
  (* the node, and its line *)
  acts None D = p ++ AHead t1 i1 None :: mid ++ after_head ic align ov cs idx e ++ q ->
  begins_line p -> isspace is_space t1 = false -> Forall in_line mid -> levels 0 mid = Some n ->
  ic e = true -> only_spaces (a_after_head a) ->
  (* the children in that line *)
  (forall m, In m (before ++ c :: after) -> Forall in_line (acts None m)) -> (forall x m m' y, before ++ c :: after = x ++ m :: m' :: y -> only_spaces (cs a m m')) ->
  head_text (attrs_of c) <> [] ->
  (* the child that is chosen *)
  align e = ix1 ++ length before :: ix2 -> (forall k m, In k ix1 -> nth_error (before ++ c :: after) k = Some m -> head_text (attrs_of m) = []) ->
  (forall k m, In k (ix1 ++ [length before]) -> In m (before ++ c :: after) -> unmarked ic k m) ->
  (* the child in the next line *)
  (exists f, c :: after = f ++ [last]) -> newline (cs a last d) \/ newline (a_before (attrs_of d)) -> head_text (attrs_of d) <> [] -> ov d = None ->
  exists front ind x y k col back,
    says x (t1 :: spoken mid ++ flat_map (fun m => spoken (acts None m)) before) /\
    indenter_write iw si ma ic align ov cs is_space s0 D =
      Ok (front ++ (repeat sp ind ++ concat x ++ head_text (attrs_of c) ++ y ++ [nl]) ++ concat (repeat (repeat sp col ++ [nl]) k)
          ++ repeat sp col ++ head_text (attrs_of d) ++ back) /\
    (length (concat x) <= ma -> col = ind + length (concat x)) /\
    (ma < length (concat x) -> (exists p0 w pre, p = p0 ++ AWant w :: pre /\ newline w /\ Forall silent pre) -> n = 0 -> col = ind + iw).
Proof.
  intros iw si ma ic align ov cs is_space s0 D p t1 i1 mid q n a before c after d post idx last ix1 ix2 e acts_ P T A B S1 FM LM IC AH KI KS HC IX CH UN LA NL HD OD.
  assert (TC : truthy (head_text (attrs_of c)) = true) by (destruct (head_text (attrs_of c)); [congruence|reflexivity]).
  assert (TD : truthy (head_text (attrs_of d)) = true) by (destruct (head_text (attrs_of d)); [congruence|reflexivity]).
  set (i := length before) in *. set (u := kacts ic align ov cs a before None 0 ++ match rev before with [] => [] | m :: _ => [AWant (cs a m c)] end ++ [AWant (a_before (attrs_of c))]).
  set (v := after_head ic align ov cs (Some i) c ++ kacts ic align ov cs a after (Some c) (S i)).
  set (ws := [AWant (cs a last d); AWant (a_before (attrs_of d))]). set (j := i + S (length after)).
  assert (EK : exists rest, kacts ic align ov cs a (before ++ c :: after ++ d :: post) None 0 = (u ++ AHead (head_text (attrs_of c)) (Some i) (ov c) :: v) ++ ws ++ AHead (head_text (attrs_of d)) (Some j) None :: rest).
  { rewrite kacts_app. cbn [kacts]. rewrite kacts_app. cbn [kacts]. rewrite Nat.add_0_l. fold i.
    assert (PR : match rev after with [] => Some c | x :: _ => Some x end = Some last).
    { destruct LA as (f & LA). apply (f_equal (@rev elem)) in LA. rewrite rev_app_distr in LA. cbn [rev app] in LA. destruct (rev after) as [|z zs]; cbn [app] in LA; injection LA as -> _; reflexivity. }
    rewrite PR. rewrite (acts_head ic align ov cs (Some i) c TC), (acts_head ic align ov cs (Some (S i + length after)) d TD), OD.
    replace (S i + length after) with j by (unfold j; lia). eexists. unfold u, v, ws. rewrite <- !app_assoc. f_equal.
    assert (SE : match match rev before with [] => None | x :: _ => Some x end with None => [] | Some m => [AWant (cs a m c)] end = match rev before with [] => [] | m :: _ => [AWant (cs a m c)] end) by (destruct (rev before); reflexivity).
    rewrite SE. f_equal. cbn [app]. do 2 f_equal. rewrite <- !app_assoc. reflexivity. }
  destruct EK as (rest & EK).
  assert (FK : Forall in_line (u ++ AHead (head_text (attrs_of c)) (Some i) (ov c) :: v)).
  { assert (F : Forall in_line (kacts ic align ov cs a (before ++ c :: after) None 0)) by (apply kacts_in_line; [exact KI|exact KS|discriminate]).
    rewrite kacts_app in F. cbn [kacts] in F. rewrite Nat.add_0_l in F. fold i in F. rewrite (acts_head ic align ov cs (Some i) c TC) in F. unfold u, v.
    assert (SE : match match rev before with [] => None | x :: _ => Some x end with None => [] | Some m => [AWant (cs a m c)] end = match rev before with [] => [] | m :: _ => [AWant (cs a m c)] end) by (destruct (rev before); reflexivity).
    rewrite SE in F. rewrite <- !app_assoc. cbn [app] in *. exact F. }
  assert (LK : forall l prev k n l', levels n (kacts ic align ov cs a l prev k ++ l') = levels n l').
  { induction l as [|m r IH]; intros prev k n' l'; [reflexivity|]. cbn [kacts]. rewrite <- !app_assoc. destruct prev; cbn [app levels]; rewrite levels_acts; apply IH. }
  assert (LU : levels 0 u = Some 0) by (unfold u; rewrite LK; destruct (rev before); reflexivity).
  assert (LAH : forall n l', levels n (after_head ic align ov cs (Some i) c ++ l') = levels n l').
  { intros n' l'. pose proof (levels_acts ic align ov cs c (Some i) n' l') as H. rewrite (acts_head ic align ov cs (Some i) c TC) in H. exact H. }
  assert (LV : levels 0 v = Some 0) by (unfold v; rewrite LAH, <- (app_nil_r (kacts ic align ov cs a after (Some c) (S i))), LK; reflexivity).
  assert (WK : forall k l prev k0 l', (forall m, In m l -> unmarked ic k m) -> (forall j m, nth_error l j = Some m -> k0 + j <> k \/ head_text (attrs_of m) = []) -> without k 0 l' -> without k 0 (kacts ic align ov cs a l prev k0 ++ l')).
  { clear. intros k. induction l as [|m r IH]; intros prev k0 l' U H W; [exact W|]. cbn [kacts]. rewrite <- !app_assoc.
    assert (X : without k 0 (acts ic align ov cs (Some k0) m ++ kacts ic align ov cs a r (Some m) (S k0) ++ l')).
    { apply without_acts; [apply U; now left| |].
      - destruct (H 0 m eq_refl) as [H0|H0]; [left; intros [= ->]; lia|right; exact H0].
      - apply IH; [intros x I; apply U; now right| |exact W]. intros j x J. specialize (H (S j) x J). rewrite Nat.add_succ_r in H. exact H. }
    destruct prev; exact X. }
  assert (W2 : without i 0 v).
  { unfold v. assert (X : without i 0 (acts ic align ov cs None c ++ kacts ic align ov cs a after (Some c) (S i))).
    { apply without_acts; [apply UN; [apply in_or_app; right; now left|apply in_or_app; right; now left]|left; discriminate|].
      rewrite <- (app_nil_r (kacts ic align ov cs a after (Some c) (S i))). apply WK; [intros m I; apply UN; [apply in_or_app; right; now left|apply in_or_app; right; now right]| |exact I].
      intros j' m _. left. lia. }
    rewrite (acts_head ic align ov cs None c TC) in X. cbn [app without] in X. destruct c as [ac kc]. exact X. }
  assert (W1 : forall k, In k ix1 -> without k 0 (u ++ AHead (head_text (attrs_of c)) (Some i) (ov c) :: v)).
  { intros k IK. assert (X : without k 0 (kacts ic align ov cs a (before ++ c :: after) None 0 ++ [])).
    { apply WK; [intros m I; apply UN; [apply in_or_app; left; exact IK|exact I]| |exact I]. intros j' m J. destruct (Nat.eq_dec j' k) as [->|N]; [right; exact (CH k m IK J)|left; exact N]. }
    rewrite app_nil_r, kacts_app in X. cbn [kacts] in X. rewrite Nat.add_0_l in X. fold i in X. rewrite (acts_head ic align ov cs (Some i) c TC) in X. unfold u, v.
    assert (SE : match match rev before with [] => None | x :: _ => Some x end with None => [] | Some m => [AWant (cs a m c)] end = match rev before with [] => [] | m :: _ => [AWant (cs a m c)] end) by (destruct (rev before); reflexivity).
    rewrite SE in X. rewrite <- !app_assoc. cbn [app] in *. exact X. }
  assert (EA : exists rest', acts_ None D = p ++ AHead t1 i1 None :: (mid ++ [AWant (a_after_head a)]) ++ AEnter (align e) :: (u ++ AHead (head_text (attrs_of c)) (Some i) (ov c) :: v) ++ ws ++ AHead (head_text (attrs_of d)) (Some j) None :: rest').
  { eexists. rewrite A. unfold e at 1. cbn [after_head]. fold e. rewrite IC, EK.
    assert (M : match before ++ c :: after ++ d :: post, a_tail a with [], [] => [] | _, _ => [AWant (a_after_head a)] end = [AWant (a_after_head a)]) by (destruct before; reflexivity).
    rewrite M. repeat first [rewrite <- app_assoc|progress cbn [app]]. reflexivity. }
  destruct EA as (rest' & EA).
  destruct (column iw si ma ic align ov cs is_space s0 D p t1 i1 (mid ++ [AWant (a_after_head a)]) (align e) u (head_text (attrs_of c)) i (ov c) v ws (head_text (attrs_of d)) (Some j) rest' n ix1 ix2) as (front & ind & x & y & k & col & back & Y1 & _ & W & C1 & C2); try assumption.
  - apply Forall_app. split; [exact FM|]. constructor; [exact AH|constructor].
  - rewrite levels_app, LM. reflexivity.
  - intros z [<-|[<-|[]]]; eexists; reflexivity.
  - destruct NL as [NL|NL]; eexists; (split; [|exact NL]); [now left|right; now left].
  - exists front, ind, x, (concat y), k, col, back. split; [|split; [exact W|split; [exact C1|exact C2]]].
    rewrite spoken_app in Y1. cbn [spoken flat_map] in Y1. rewrite app_nil_r in Y1. unfold u in Y1. rewrite !spoken_app in Y1.
    assert (SS : spoken (match rev before with [] => [] | m :: _ => [AWant (cs a m c)] end) = []) by (destruct (rev before); reflexivity). rewrite SS in Y1. cbn [spoken flat_map app] in Y1. rewrite app_nil_r in Y1.
    assert (SK : forall l prev k, spoken (kacts ic align ov cs a l prev k) = flat_map (fun m => spoken (acts_ None m)) l).
    { clear. assert (SI : forall e k, spoken (acts ic align ov cs k e) = spoken (acts ic align ov cs None e)).
      { intros [a0 kids] k. rewrite !acts_eq. destruct (truthy (head_text a0)); reflexivity. }
      induction l as [|m r IH]; intros prev k; [reflexivity|]. cbn [kacts flat_map]. rewrite !spoken_app, SI, IH. destruct prev; reflexivity. }
    rewrite SK in Y1. exact Y1.
Qed.

(** ** C138 *)
(** The children of a node that are on a new line begin in the column of the child that its indices tell to align with, if that is in the line where the
    node begins; if this is more than [max_align_indent] from the start of that line, they are indented by [indent_width].
    [p], [t1] and [mid] are what is written before the contents of the node: [t1] is the first text in the line, and no indenting node that began earlier ends between it and the node.
    Missing for the full claim: lines in which such a node ends (C58_alignment_finding); nodes below the children that have the same index
    in their parent (C138_nested_finding). *)
Theorem C138_aligned_partial : forall iw si ma ic align ov cs is_space s0 D p0 p t1 i1 mid q n a before c after d post idx last ix1 ix2,
  let e := E a (before ++ c :: after ++ d :: post) in
  let acts := acts ic align ov cs in
  (* the document *)
  printable ic D -> Forall tidy_act (acts None D) ->
  (* the node, and its line *)
  acts None D = p0 ++ acts idx e ++ q -> head_text a <> [] ->
  p0 ++ [AWant (a_before a); AHead (head_text a) idx (ov e)] = p ++ AHead t1 i1 None :: mid ->
  begins_line p -> isspace is_space t1 = false -> Forall in_line mid -> levels 0 mid = Some n ->
  ic e = true -> only_spaces (a_after_head a) ->
  (* the children in that line *)
  (forall m, In m (before ++ c :: after) -> Forall in_line (acts None m)) -> (forall x m m' y, before ++ c :: after = x ++ m :: m' :: y -> only_spaces (cs a m m')) ->
  head_text (attrs_of c) <> [] ->
  (* the child that is chosen *)
  align e = ix1 ++ length before :: ix2 -> (forall k m, In k ix1 -> nth_error (before ++ c :: after) k = Some m -> head_text (attrs_of m) = []) ->
  (forall k m, In k (ix1 ++ [length before]) -> In m (before ++ c :: after) -> unmarked ic k m) ->
  (* the child in the next line *)
  (exists f, c :: after = f ++ [last]) -> newline (cs a last d) \/ newline (a_before (attrs_of d)) -> head_text (attrs_of d) <> [] -> ov d = None ->
  exists front ind x y k col back,
    says x (t1 :: spoken mid ++ flat_map (fun m => spoken (acts None m)) before) /\
    indenter_write iw si ma ic align ov cs is_space s0 D =
      Ok (front ++ (repeat sp ind ++ concat x ++ head_text (attrs_of c) ++ y ++ [nl]) ++ concat (repeat (repeat sp col ++ [nl]) k)
          ++ repeat sp col ++ head_text (attrs_of d) ++ back) /\
    (length (concat x) <= ma -> col = ind + length (concat x)) /\
    (ma < length (concat x) -> (exists p0 w pre, p = p0 ++ AWant w :: pre /\ newline w /\ Forall silent pre) -> n = 0 -> col = ind + iw).
Proof.
  intros iw si ma ic align ov cs is_space s0 D p0 p t1 i1 mid q n a before c after d post idx last ix1 ix2 e acts_ P T A HA L.
  assert (A' : acts_ None D = p ++ AHead t1 i1 None :: mid ++ after_head ic align ov cs idx e ++ q).
  { rewrite A. unfold acts_. rewrite (acts_head ic align ov cs idx e) by (cbn [e attrs_of]; destruct (head_text a); [congruence|reflexivity]).
    change (p0 ++ ([AWant (a_before a); AHead (head_text a) idx (ov e)] ++ after_head ic align ov cs idx e) ++ q = p ++ (AHead t1 i1 None :: mid) ++ after_head ic align ov cs idx e ++ q).
    rewrite <- !app_assoc, (app_assoc p0), L, <- app_assoc. reflexivity. }
  intros. eapply aligned; eassumption.
Qed.
Print Assumptions C138_aligned_partial.

(** ** Examples *)
Local Open Scope string_scope.
Local Open Scope list_scope.
(** A Scheme list, with the indices of dom/scm.py 123-131; [own_line] is a child that begins a line. *)
Definition scheme (kids : list elem) : elem := E (Attrs Block 2 (Ok (txt' "(")) (txt' ")") None None false false [] [] (txt' " ") [] []) kids.
Definition own_line (t : string) : elem := E (Attrs Head 1 (Ok (txt' t)) [] None None false false (txt' nls) [] [] [] []) [].
Definition with_child (t u : string) : elem := E (Attrs Head 3 (Ok (txt' t)) [] None None false false [] [] [] [] []) [note u].
Definition indices (l : list nat) (e : elem) : list nat := if ic_ex e then l else [].
Definition show_with (m : nat) (l : list nat) := indenter_write 2 0 m ic_ex (indices l) (fun _ => None) concat_default is_ws (State [] [] [] 0 [] false).

Example C138_witness :
  show_with 16 [1; 0] (blk nls [note "a"; scheme [note "if"; note "x"; own_line "y"; own_line "z"]]) = Ok (lines_of ["{"; "  a"; "  (if x"; "      y"; "      z)"; "}"]) /\
  show_with 3 [1; 0] (blk nls [note "a"; scheme [note "if"; note "x"; own_line "y"; own_line "z"]]) = Ok (lines_of ["{"; "  a"; "  (if x"; "    y"; "    z)"; "}"]) /\
  show_with 16 [1; 0] (blk nls [note "a"; scheme [note "if"; own_line "y"; own_line "z"]]) = Ok (lines_of ["{"; "  a"; "  (if"; "   y"; "   z)"; "}"]).
Proof. repeat split; vm_compute; reflexivity. Qed.
(** The theorem applies to this document: the node is the list, the child in the next line is [y]. *)
Example C138_applies :
  let D := blk nls [note "a"; scheme [note "if"; note "x"; own_line "y"; own_line "z"]] in
  exists front ind x y k col back,
    says x [txt' "("; txt' "if"] /\
    show_with 16 [1; 0] D = Ok (front ++ (repeat sp ind ++ concat x ++ txt' "x" ++ y ++ [nl]) ++ concat (repeat (repeat sp col ++ [nl]) k) ++ repeat sp col ++ txt' "y" ++ back) /\
    (length (concat x) <= 16 -> col = ind + length (concat x)).
Proof.
  intros D. set (A := acts ic_ex (indices [1; 0]) (fun _ => None) concat_default).
  pose (p0 := firstn 8 (A None D)). pose (q := skipn (8 + length (A (Some 1) (scheme [note "if"; note "x"; own_line "y"; own_line "z"]))) (A None D)).
  assert (OS : forall w, forallb (Ascii.eqb sp) w = true -> only_spaces w).
  { intros w H c I. symmetry. apply Ascii.eqb_eq. exact (proj1 (forallb_forall _ _) H c I). }
  assert (NW : newline (txt' nls)) by (split; [discriminate|intros c [<-|[]]; reflexivity]).
  pose (isl := fun x => match x with AWant w => forallb (Ascii.eqb sp) w | _ => true end).
  pose (ist := fun x => isl x || match x with AWant w => forallb (Ascii.eqb nl) w | _ => true end).
  assert (TL : forall l, forallb isl l = true -> Forall in_line l).
  { intros l H. apply Forall_forall. intros x J. pose proof (proj1 (forallb_forall _ _) H x J) as B. destruct x; try exact I. exact (OS _ B). }
  assert (TA : forall l, forallb ist l = true -> Forall tidy_act l).
  { intros l H. apply Forall_forall. intros x J. pose proof (proj1 (forallb_forall _ _) H x J) as B. destruct x as [w| | | |]; try exact I. destruct w as [|c w]; [left; intros d []|].
    apply orb_true_iff in B as [B|B]; [left; exact (OS _ B)|right; split; [discriminate|]]. intros d K. symmetry. apply Ascii.eqb_eq. exact (proj1 (forallb_forall _ _) B d K). }
  assert (UM : forall k t, unmarked ic_ex k (note t)) by (intros; right; exact I).
  destruct (C138_aligned_partial 2 0 16 ic_ex (indices [1; 0]) (fun _ => None) concat_default is_ws (State [] [] [] 0 [] false) D
    p0 (p0 ++ [AWant []]) (txt' "(") (Some 1) [] q 0 (attrs_of (scheme [])) [note "if"] (note "x") [] (own_line "y") [own_line "z"] (Some 1) (note "x") [] [0])
    as (front & ind & x & y & k & col & back & S1 & W & C1 & _).
  - cbn. repeat split; try discriminate; eauto.
  - apply TA. vm_compute. reflexivity.
  - reflexivity.
  - discriminate.
  - reflexivity.
  - left. exists (firstn 7 (A None D)), (txt' nls), [AWant []]. split; [reflexivity|]. split; [exact NW|]. constructor; [left; apply OS; reflexivity|constructor].
  - reflexivity.
  - constructor.
  - reflexivity.
  - reflexivity.
  - apply OS. reflexivity.
  - intros m [<-|[<-|[]]]; apply TL; vm_compute; reflexivity.
  - intros. apply OS. reflexivity.
  - discriminate.
  - reflexivity.
  - intros k m [].
  - intros k m _ [<-|[<-|[]]]; apply UM.
  - exists []. reflexivity.
  - right. exact NW.
  - discriminate.
  - reflexivity.
  - exists front, ind, x, y, k, col, back. split; [exact S1|]. split; [exact W|exact C1].
Qed.

(** Finding: the position is also noted for a node that is child number [index] of a node within the block, so the next lines are aligned with
    the last such node. With the indices of lily.py 1371-1373 (0) a list of notes with durations is aligned with its last duration, and not with its first note;
    and with the indices of scm.py 123-131 (0) [('a b] is aligned with [a], after the quote. *)
Theorem C138_nested_finding :
  show_with 16 [0] (blk " " [with_child "c" "4"; with_child "d" "8"; own_line "e"]) = Ok (lines_of ["{ c4 d8"; "      e }"]) /\
  show_with 16 [0] (blk " " [note "c"; note "d"; own_line "e"]) = Ok (lines_of ["{ c d"; "  e }"]) /\
  show_with 16 [0] (scheme [with_child "'" "a"; own_line "b"]) = Ok (lines_of ["('a"; "  b)"]).
Proof. repeat split; vm_compute; reflexivity. Qed.
Print Assumptions C138_nested_finding.
