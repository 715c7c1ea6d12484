(** C139: the lines of indented output (dom/indent.py 113-138): where they begin and end. *)
From Coq Require Import String Ascii List Arith Bool Lia.
From Verif Require Import Base Element_Model Element_Spec Element_Proofs Indent_Model Indent_Spec Indent_Proofs Indent_Props Indent_Align.
Import ListNotations.
Open Scope nat_scope.

Lemma says_snoc_space y ts : says y ts -> says (y ++ [[sp]]) ts.
Proof. intros H. rewrite <- (app_nil_r ts). apply says_app; [exact H|]. constructor. constructor. Qed.
Lemma says_snoc y ts t : says y ts -> says (y ++ [t]) (ts ++ [t]).
Proof. intros H. apply says_app; [exact H|]. constructor. constructor. Qed.

Section Lines.
Variables iw si ma : nat.
Variable ic : elem -> bool.
Variable align : elem -> list nat.
Variable ov : elem -> option nat.
Variable cs : attrs -> elem -> elem -> str.
Variable all : list str.
Notation run := (run iw si ma).
Notation run_act := (run_act iw si ma).

Definition ended (line : list str) : Prop := line = [] \/ exists x t, line = x ++ [t] /\ In t all.
Definition pieces (o : list block) : list str := concat (map b_line (rev o)).
Record inv (sp0 : list str) (s : state) : Prop := {
  v_some : i_output s <> [];
  v_ws : Forall tidy (i_ws s);
  v_ended : Forall (fun b => ended (b_line b)) (i_output s);
  v_says : says (pieces (i_output s)) sp0;
  v_last : forall b r, i_output s = b :: r -> (sp0 = [] /\ b_line b = []) \/ exists x ts t, sp0 = ts ++ [t] /\ b_line b = x ++ [t] }.

Lemma pieces_cons b r : pieces (b :: r) = pieces r ++ b_line b.
Proof. unfold pieces. cbn [rev]. rewrite map_app, concat_app. cbn [map concat]. rewrite app_nil_r. reflexivity. Qed.
Lemma loop_newlines g : forall s s' sp0, (forall c, In c g -> c = nl) -> i_output s <> [] -> Forall (fun b => ended (b_line b)) (i_output s) -> says (pieces (i_output s)) sp0 ->
  space_loop iw si ma g s = Ok s' -> i_output s' <> [] /\ Forall (fun b => ended (b_line b)) (i_output s') /\ says (pieces (i_output s')) sp0.
Proof.
  induction g as [|c g IH]; intros s s' sp0 A N F S E; cbn [space_loop] in E; [injection E as <-; auto|].
  rewrite (A c (or_introl eq_refl)), Ascii.eqb_refl in E. destruct (create_ok iw si ma s N) as (st & c' & C). rewrite C in E. cbn [bindr] in E.
  refine (IH _ s' sp0 _ _ _ _ E); cbn [i_output].
  - intros d I. apply A. now right.
  - discriminate.
  - constructor; [left; reflexivity|exact F].
  - rewrite pieces_cons. cbn [b_line]. rewrite app_nil_r. exact S.
Qed.
Lemma space_inv sp0 s s' : inv sp0 s -> output_space iw si ma s = Ok s' -> exists b r, i_output s' = b :: r /\ Forall (fun b => ended (b_line b)) r /\ says (pieces (b :: r)) sp0 /\ i_ws s' = [].
Proof.
  intros [N T F S L] E. unfold output_space in E. destruct (i_output s) as [|[ind line] r] eqn:O; [congruence|].
  destruct (space_loop iw si ma (collapse_whitespace (i_ws s)) s) as [s1|] eqn:E1; cbn [bindr] in E; [|discriminate]. injection E as <-. cbn [i_output i_ws].
  assert (ND : forall w, {newline w} + {~ newline w}).
  { intros w. destruct w as [|c w]; [right; intros [? _]; congruence|]. destruct (Forall_dec (fun c => c = nl) (fun c => Ascii.ascii_dec c nl) (c :: w)) as [G|G].
    - left. split; [discriminate|]. apply Forall_forall. exact G.
    - right. intros [_ H]. apply G, Forall_forall. exact H. }
  destruct (Exists_dec newline (i_ws s) ND) as [X|X].
  - pose proof (collapse_newline _ T X) as [_ G]. destruct (loop_newlines _ _ _ sp0 G (ltac:(rewrite O; discriminate)) (ltac:(rewrite O; exact F)) (ltac:(rewrite O; exact S)) E1) as (N1 & F1 & S1).
    destruct (i_output s1) as [|b r1]; [congruence|]. exists b, r1. split; [reflexivity|]. split; [exact (Forall_inv_tail F1)|]. split; [exact S1|reflexivity].
  - assert (W : Forall only_spaces (i_ws s)).
    { apply Forall_forall. intros w I. rewrite Forall_forall in T. destruct (T w I) as [H|H]; [exact H|]. exfalso. apply X, Exists_exists. exists w. auto. }
    destruct (space_loop_line iw si ma _ s ind line r (collapse_spaces _ W) O) as (sps & Y & Q). rewrite Q in E1. injection E1 as <-. cbn [i_output].
    exists (Blk ind (line ++ sps)), r. split; [reflexivity|]. split; [inversion F; assumption|]. split; [|reflexivity]. rewrite pieces_cons in *. cbn [b_line] in *. rewrite app_assoc, <- (app_nil_r sp0). apply says_app; assumption.
Qed.
Lemma text_inv t sp0 b r ind s' : In t all -> Forall (fun b => ended (b_line b)) r -> says (pieces (b :: r)) sp0 ->
  i_output s' = Blk ind (b_line b ++ [t]) :: r -> i_ws s' = [] -> inv (sp0 ++ [t]) s'.
Proof.
  intros I F S O W. constructor; rewrite ?O, ?W.
  - discriminate.
  - constructor.
  - constructor; [right; exists (b_line b), t; split; [reflexivity|exact I]|exact F].
  - rewrite pieces_cons in *. cbn [b_line]. rewrite app_assoc. apply says_snoc. exact S.
  - intros b' r' [= <- <-]. right. exists (b_line b), sp0, t. split; reflexivity.
Qed.
Lemma act_inv x sp0 s s' : tidy_act x -> (forall t, In t (spoken [x]) -> In t all) -> inv sp0 s -> run_act x s = Ok s' -> inv (sp0 ++ spoken [x]) s'.
Proof.
  intros T A V E. destruct x as [w|t i o|t|ix|]; cbn [Indent_Align.run_act spoken flat_map app] in *; rewrite ?app_nil_r.
  - injection E as <-. destruct V as [N W F S L]. constructor; cbn [i_output i_ws add_whitespace]; try assumption. apply Forall_app. split; [exact W|]. constructor; [exact T|constructor].
  - unfold output_head in E. destruct (output_space iw si ma s) as [s1|] eqn:E1; cbn [bindr] in E; [|discriminate]. destruct (space_inv _ _ _ V E1) as (b & r & O & F & S & W). rewrite O in E. injection E as <-.
    eapply text_inv; [apply A; now left|exact F|exact S|reflexivity|exact W].
  - unfold output_tail in E. destruct (output_space iw si ma s) as [s1|] eqn:E1; cbn [bindr] in E; [|discriminate]. destruct (space_inv _ _ _ V E1) as (b & r & O & F & S & W).
    destruct (i_can s1 && negb (Nat.eqb (i_ded s1) 0)).
    + destruct (del_nth (i_ded s1 - 1) (i_stack s1)); cbn [bindr] in E; [|discriminate]. rewrite O in E. cbn [bindr] in E. unfold append_text in E. cbn [i_output] in E. injection E as <-.
      eapply text_inv; [apply A; now left|exact F|exact S|reflexivity|exact W].
    + cbn [bindr] in E. unfold append_text in E. rewrite O in E. injection E as <-. eapply text_inv; [apply A; now left|exact F|exact S|reflexivity|exact W].
  - injection E as <-. destruct V. constructor; assumption.
  - injection E as <-. destruct V. unfold leave_indent. destruct (i_indenters s); constructor; assumption.
Qed.
Lemma run_inv l : forall sp0 s s', Forall tidy_act l -> (forall t, In t (spoken l) -> In t all) -> inv sp0 s -> run l s = Ok s' -> inv (sp0 ++ spoken l) s'.
Proof.
  induction l as [|x l IH]; intros sp0 s s' T A V E; cbn [Indent_Align.run] in E; [injection E as <-; cbn [spoken flat_map]; rewrite app_nil_r; exact V|].
  destruct (run_act x s) as [s1|] eqn:E1; cbn [bindr] in E; [|discriminate]. change (x :: l) with ([x] ++ l) in *. rewrite spoken_app in *. rewrite app_assoc.
  apply (IH _ s1); [exact (Forall_inv_tail T)|intros t I; apply A, in_or_app; now right| |exact E]. apply (act_inv x sp0 s s1 (Forall_inv T)); [intros t I; apply A, in_or_app; now left|exact V|exact E1].
Qed.

Variable is_space : ascii -> bool.
Hypothesis SPACE : is_space sp = true.
Hypothesis TEXTS : forall t, In t all -> isspace is_space t = false.
Lemma strip_says y ts : says y ts -> (forall t, In t ts -> In t all) -> match ts with [] => strip_line is_space y = [] | t :: _ => exists r, strip_line is_space y = t :: r end.
Proof.
  induction 1 as [|t y ts H IH|y ts H IH]; intros A.
  - reflexivity.
  - cbn [strip_line]. rewrite (TEXTS t (A t (or_introl eq_refl))). eauto.
  - cbn [strip_line]. unfold isspace. cbn [truthy forallb]. rewrite SPACE. cbn [andb]. exact (IH A).
Qed.
Lemma strip_ended l : ended l -> ended (strip_line is_space l).
Proof.
  intros [->|(x & t & -> & I)]; [left; reflexivity|]. right. induction x as [|p x IH]; cbn [app strip_line].
  - rewrite (TEXTS t I). exists [], t. auto.
  - destruct (isspace is_space p); [exact IH|]. exists (p :: x), t. auto.
Qed.
Lemma strip_last x t : In t all -> exists y, strip_line is_space (x ++ [t]) = y ++ [t].
Proof.
  intros I. induction x as [|p x IH]; cbn [app strip_line]; [rewrite (TEXTS t I); exists []; reflexivity|]. destruct (isspace is_space p); [exact IH|]. exists (p :: x). reflexivity.
Qed.
Lemma strip_line_app x y : strip_line is_space (x ++ y) = match strip_line is_space x with [] => strip_line is_space y | l => l ++ y end.
Proof. induction x as [|p x IH]; [reflexivity|]. cbn [app strip_line]. destruct (isspace is_space p); [exact IH|reflexivity]. Qed.
Lemma strip_pieces bs : concat (map b_line (strip is_space bs)) = strip_line is_space (concat (map b_line bs)).
Proof.
  induction bs as [|b r IH]; [reflexivity|]. cbn [strip map concat]. rewrite strip_line_app. destruct (strip_line is_space (b_line b)) as [|p l]; [exact IH|]. reflexivity.
Qed.
Lemma strip_head bs b r : strip is_space bs = b :: r -> b_line b <> [].
Proof. induction bs as [|c bs IH]; cbn [strip]; [discriminate|]. destruct (strip_line is_space (b_line c)) eqn:E; [exact IH|]. intros [= <- <-]. discriminate. Qed.
Lemma strip_all bs : Forall (fun b => ended (b_line b)) bs -> Forall (fun b => ended (b_line b)) (strip is_space bs).
Proof.
  induction 1 as [|b r H F IH]; cbn [strip]; [constructor|]. pose proof (strip_ended _ H) as S. destruct (strip_line is_space (b_line b)); [exact IH|]. constructor; assumption.
Qed.
Lemma strip_end bs b x t : b_line b = x ++ [t] -> In t all -> exists cs c y, strip is_space (bs ++ [b]) = cs ++ [c] /\ b_line c = y ++ [t].
Proof.
  intros L I. induction bs as [|d bs IH]; cbn [app strip].
  - rewrite L. destruct (strip_last x t I) as (y & E). destruct (strip_line is_space (x ++ [t])) as [|p l]; [destruct y; discriminate|]. exists [], (Blk (b_indent b) (p :: l)), y. auto.
  - destruct (strip_line is_space (b_line d)); [exact IH|]. exists (Blk (b_indent d) (s :: l) :: bs), b, x. auto.
Qed.
End Lines.

(** ** C139 *)
(** Indented output is a number of lines. Every line is blank or ends with a text, so there are no spaces after a text; the first line begins (after the indent) with the first
    text, and the last line ends with the last text, so the output does not begin or end with a blank line; without any text there are no lines. *)
Theorem C139_lines : forall iw si ma ic align ov cs is_space s0 D,
  let l := acts ic align ov cs None D in
  printable ic D -> Forall tidy_act l -> is_space sp = true -> (forall t, In t (spoken l) -> isspace is_space t = false) ->
  exists lines, indenter_write iw si ma ic align ov cs is_space s0 D = Ok (concat (map (fun x => x ++ [nl]) lines)) /\
    (forall x, In x lines -> (exists k, x = repeat sp k) \/ exists y t, x = y ++ t /\ In t (spoken l)) /\
    (spoken l = [] -> lines = []) /\
    (forall t ts, spoken l = t :: ts -> exists k y r, lines = (repeat sp k ++ t ++ y) :: r) /\
    (forall ts t, spoken l = ts ++ [t] -> exists r y, lines = r ++ [y ++ t]).
Proof.
  intros iw si ma ic align ov cs is_space s0 D l P T SP TX.
  assert (W : exists s, output_node iw si ma ic align ov cs D None (first_state si) = Ok s /\ indenter_write iw si ma ic align ov cs is_space s0 D = Ok (concat (map block_output (strip is_space (rev (i_output s)))))).
  { destruct (write_core False iw si ma ic align ov cs is_space s0 D P ltac:(tauto)) as (_ & _ & bs & W & _). unfold indenter_write in *.
    change (create_new_block iw si ma (State [] [] [] 0 [] (i_can s0))) with (Ok (first_state si)) in *. cbn [bindr] in *.
    destruct (output_node iw si ma ic align ov cs D None (first_state si)) as [s|]; [|discriminate]. exists s. split; reflexivity. }
  destruct W as (s & R & W). rewrite W. clear W. rewrite run_node in R by exact P. fold l in R.
  assert (V : inv (spoken l) (spoken l) s).
  { refine (run_inv iw si ma (spoken l) l [] (first_state si) s T (fun t I => I) _ R). constructor; cbn [first_state i_output i_ws].
    - discriminate.
    - constructor.
    - constructor; [left; reflexivity|constructor].
    - constructor.
    - intros b r [= <- <-]. left. auto. }
  set (bs := rev (i_output s)) in *. exists (map (fun b => repeat sp (b_indent b) ++ concat (b_line b)) (strip is_space bs)).
  pose proof (strip_pieces is_space bs) as SPI. pose proof (strip_says (spoken l) is_space SP TX _ _ (v_says _ _ _ V) (fun t I => I)) as FS. fold bs in FS. unfold pieces in FS. fold bs in FS. rewrite <- SPI in FS.
  split; [|split; [|split; [|split]]].
  - rewrite map_map. do 2 f_equal. apply map_ext. intros b. unfold block_output. rewrite app_assoc. reflexivity.
  - intros x I. apply in_map_iff in I as (b & <- & I). assert (F : Forall (fun b => ended (spoken l) (b_line b)) (strip is_space bs)).
    { apply strip_all; [exact TX|]. apply Forall_rev. exact (v_ended _ _ _ V). }
    rewrite Forall_forall in F. destruct (F b I) as [E|(y & t & E & J)]; rewrite E.
    + left. exists (b_indent b). cbn [concat]. apply app_nil_r.
    + right. exists (repeat sp (b_indent b) ++ concat y), t. rewrite concat_app. cbn [concat]. rewrite app_nil_r, app_assoc. auto.
  - intros E. rewrite E in FS. destruct (strip is_space bs) as [|b r] eqn:SB; [reflexivity|]. pose proof (strip_head is_space _ _ _ SB) as N. cbn [map concat] in FS. apply app_eq_nil in FS as [FS _]. congruence.
  - intros t ts E. rewrite E in FS. destruct FS as (q & FS). destruct (strip is_space bs) as [|b r] eqn:SB; [discriminate|]. pose proof (strip_head is_space _ _ _ SB) as N. cbn [map concat] in FS. destruct (b_line b) as [|p m] eqn:BL; [congruence|]. injection FS as -> _.
    exists (b_indent b), (concat m), (map (fun b => repeat sp (b_indent b) ++ concat (b_line b)) r). cbn [map]. rewrite BL. cbn [concat]. reflexivity.
  - intros ts t E. destruct (i_output s) as [|b r] eqn:O; [pose proof (v_some _ _ _ V); congruence|]. destruct (v_last _ _ _ V b r O) as [[X _]|(x & ts' & t' & X & BL)]; [rewrite X in E; destruct ts; discriminate|].
    rewrite E in X. apply app_inj_tail in X as [_ <-]. subst bs. cbn [rev]. destruct (strip_end (spoken l) is_space TX (rev r) b x t BL) as (cs' & c & y & SE & CL). { rewrite E. apply in_or_app. right. now left. }
    rewrite SE, map_app. cbn [map]. rewrite CL, concat_app. cbn [concat]. rewrite app_nil_r. exists (map (fun b => repeat sp (b_indent b) ++ concat (b_line b)) cs'), (repeat sp (b_indent c) ++ concat y). rewrite app_assoc. reflexivity.
Qed.
Print Assumptions C139_lines.

(** ** Examples *)
Local Open Scope string_scope.
Local Open Scope list_scope.
Definition two_lines : string := nls ++ nls.
Example C139_witness :
  let D := blk nls [note "a"; blk " " [note "b"; note "c"]] in
  printable ic_ex D /\ forallb (fun x => match x with AWant w => forallb (Ascii.eqb sp) w || forallb (Ascii.eqb nl) w | _ => true end) (acts ic_ex (fun _ => []) (fun _ => None) concat_default None D) = true /\
  is_ws sp = true /\ forallb (fun t => negb (isspace is_ws t)) (spoken (acts ic_ex (fun _ => []) (fun _ => None) concat_default None D)) = true /\
  show D = Ok (lines_of ["{"; "  a"; "  { b c }"; "}"]).
Proof. split; [cbn; repeat split; try discriminate; eauto|]. repeat split; vm_compute; reflexivity. Qed.
(** Finding: blank lines are not empty, they have the spaces of the indent. *)
Theorem C139_blank_finding : show (blk two_lines [note "a"; note "b"]) = Ok (lines_of ["{"; "  "; "  a"; "  "; "  b"; ""; "}"]).
Proof. vm_compute. reflexivity. Qed.
Print Assumptions C139_blank_finding.
