(** Properties C57 and C58: indented output. *)
From Coq Require Import String Ascii List Arith Bool Lia ZifyBool.
From Verif Require Import Base Element_Model Element_Spec Element_Proofs Element_Props Indent_Model Indent_Spec Indent_Proofs.
Import ListNotations.

Lemma start_rel : forall (NA : Prop) iw si ma c, exists s,
  create_new_block iw si ma (State [] [] [] 0 [] c) = Ok s /\ rel iw si NA 0 0 s [] [Line (indent_at iw si 0) true []].
Proof.
  intros. eexists. split; [reflexivity|]. cbn. constructor; cbn; auto.
  - constructor; [|constructor]. split; [reflexivity|]. intros _. unfold indent_at. cbn. lia.
  - discriminate.
  - discriminate.
  - intros l more X _ _. injection X; intros; subst. cbn. split; [reflexivity|]. reflexivity.
Qed.

Lemma write_core : forall (NA : Prop) iw si ma ic align ov cs is_space s0 e,
  printable ic e -> (NA -> every_node (unaligned ic align) e) ->
  exists ls out bs, indenter_write iw si ma ic align ov cs is_space s0 e = Ok (concat (map block_output bs)) /\
    document_lines iw si ic ov cs e ls /\ stripped is_space ls out /\ Forall2 (same NA) bs out.
Proof.
  intros NA iw si ma ic align ov cs is_space s0 e P U. unfold indenter_write.
  destruct (start_rel NA iw si ma (i_can s0)) as (s & E & R). rewrite E. cbn [bindr].
  destruct (node_ok iw si ma ic align ov cs NA e 0 None s [] _ P U R) as (s' & ws' & ls' & E' & R' & T). rewrite E'. cbn [bindr].
  specialize (T [] ls' (ts_end _ _ _ _)). rewrite app_nil_r in T. pose proof (r_lines _ _ _ _ _ _ _ _ R') as F.
  assert (FR : Forall2 (same NA) (rev (i_output s')) (rev ls')).
  { clear -F. induction F; cbn; [constructor|]. apply Forall2_app; [exact IHF|]. constructor; [assumption|constructor]. }
  destruct (strip_ok is_space NA _ _ FR) as (out & S1 & S2).
  exists (rev ls'), out, (strip is_space (rev (i_output s'))). split; [reflexivity|]. split; [exists ls'; auto|]. auto.
Qed.

(** * C57 *)
(** The output consists of the lines of the document without leading space, each with some indent; this
    holds for every state the Indenter was in. *)
Theorem C57_write_indented : forall iw si ma ic align ov cs is_space s0 e, printable ic e ->
  exists ls out indents, document_lines iw si ic ov cs e ls /\ stripped is_space ls out /\ length indents = length out /\
    indenter_write iw si ma ic align ov cs is_space s0 e = Ok (concat (map (fun il => line_text (fst il) (snd il)) (combine indents out))).
Proof.
  intros iw si ma ic align ov cs is_space s0 e P.
  destruct (write_core False iw si ma ic align ov cs is_space s0 e P ltac:(tauto)) as (ls & out & bs & W & D & S & F).
  exists ls, out, (map b_indent bs). split; [exact D|]. split; [exact S|]. split.
  - rewrite map_length. clear -F. induction F; cbn; auto.
  - rewrite W. do 2 f_equal. clear -F. induction F as [|b l bs out X F IH]; [reflexivity|]. cbn [map combine]. f_equal; [|exact IH].
    destruct X as [X _]. unfold line_text, block_output. cbn. rewrite X. reflexivity.
Qed.
Print Assumptions C57_write_indented.

(** Without their indent the lines are the texts that write() outputs, in the same order,
    joined by the strongest of the whitespace requests between them. *)
Theorem C57_same_texts : forall iw si ic ov cs e ts ls, proper e -> Forall2 is_text (texts e) ts ->
  document_lines iw si ic ov cs e ls ->
  let doc := sections (items (flow ic ov cs 0 e)) in
  map fst (snd doc) = filter truthy ts /\
  ((snd doc = [] /\ join_lines ls = []) \/ exists lead s, join_lines ls = lead ++ s /\ strongest (fst doc) lead /\ joined (snd doc) s).
Proof.
  intros iw si ic ov cs e ts ls P F (out & T & ->) doc. split; [apply said_texts; assumption|].
  rewrite join_rev. destruct (typeset_text _ _ _ _ _ _ T ltac:(discriminate) (flow_full ic ov cs e 0)) as (t & E & S). fold doc in S.
  cbn [rtext l_pieces concat app] in E. rewrite E. destruct (snd doc) as [|x secs].
  - left. auto.
  - right. destruct S as (g & s & -> & A & B). exists g, s. auto.
Qed.
Print Assumptions C57_same_texts.

(** The text is what write() outputs, up to the whitespace between texts. *)
Theorem C57_like_write : forall iw si ic ov cs e ts ls, proper e -> has_origins e -> Forall2 is_text (texts e) ts ->
  (forall w, In (Want w) (flow ic ov cs 0 e) -> blank w) -> (forall w, In (Req w) (layout cs e) -> blank w) ->
  document_lines iw si ic ov cs e ls ->
  exists lead s s', write cs e = Ok s /\ join_lines ls = lead ++ s' /\ blank lead /\
    spaced (filter truthy ts) s /\ spaced (filter truthy ts) s'.
Proof.
  intros iw si ic ov cs e ts ls P O F B1 B2 D. pose proof (C57_same_texts iw si ic ov cs e ts ls P F D) as X. cbv zeta in X.
  destruct X as (M & X).
  assert (RQ : forall l, (forall w, In w (fst (sections l)) -> In (Req w) l) /\ (forall t ws w, In (t, ws) (snd (sections l)) -> In w ws -> In (Req w) l)).
  { clear. induction l as [|[w|f] l IH]; cbn [sections]; [split; [intros w []|intros t ws w []]| |]; destruct (sections l) as [w' secs]; cbn [fst snd] in *; destruct IH as [A B].
    - split; [intros v [->|I]; [left; reflexivity|right; auto]|]. intros t ws v I J. right. eauto.
    - destruct (f_text f) as [[|c t]|]; cbn [fst snd]; (split; [intros v I; try destruct I; right; auto|]); intros t' ws v I J; right; [eauto| |eauto].
      destruct I as [I|I]; [injection I; intros; subst; auto|eauto]. }
  assert (WB : forall w, In (Req w) (items (flow ic ov cs 0 e)) -> blank w).
  { intros w I. apply B1. unfold items in I. apply in_map_iff in I. destruct I as (ev & E & I). destruct ev; [injection E as ->; exact I|discriminate]. }
  destruct (write_spec cs e ts O F) as (s & W & J & T).
  assert (SP : spaced (filter truthy ts) s).
  { rewrite <- T. apply joined_spaced; [exact J|]. intros t ws w I1 I2. apply B2. apply (proj2 (RQ (layout cs e)) t ws w I1 I2). }
  destruct X as [[X1 X2]|(lead & s' & E & L & J')].
  - rewrite X1 in M. cbn in M. exists [], s, []. split; [exact W|]. split; [rewrite X2; reflexivity|]. split; [intros c []|]. split; [exact SP|rewrite <- M; constructor].
  - exists lead, s, s'. split; [exact W|]. split; [exact E|]. split.
    + intros c I. destruct L as [[_ ->]|(l1 & l2 & L1 & _)]; [destruct I|]. apply (WB lead); [|exact I]. apply (proj1 (RQ _)). rewrite L1. apply in_or_app. right. left. reflexivity.
    + split; [exact SP|]. rewrite <- M. apply joined_spaced; [exact J'|]. intros t ws w I1 I2. apply WB. apply (proj2 (RQ _) t ws w I1 I2).
Qed.
Print Assumptions C57_like_write.

(** An Indenter can be used again: nothing is left from earlier calls. *)
Theorem C57_reuse : forall iw si ma ic align ov cs is_space s0 s1 e,
  indenter_write iw si ma ic align ov cs is_space s0 e = indenter_write iw si ma ic align ov cs is_space s1 e.
Proof. reflexivity. Qed.
Print Assumptions C57_reuse.

(** * C58 *)
(** Without alignment every line has the indent that belongs to its depth. *)
Theorem C58_indent : forall iw si ma ic align ov cs is_space s0 e, printable ic e -> every_node (unaligned ic align) e ->
  exists ls out, document_lines iw si ic ov cs e ls /\ stripped is_space ls out /\
    indenter_write iw si ma ic align ov cs is_space s0 e = Ok (concat (map (fun l => line_text (l_indent l) l) out)).
Proof.
  intros iw si ma ic align ov cs is_space s0 e P U.
  destruct (write_core True iw si ma ic align ov cs is_space s0 e P ltac:(tauto)) as (ls & out & bs & W & D & S & F).
  exists ls, out. split; [exact D|]. split; [exact S|]. rewrite W. do 2 f_equal. clear -F.
  induction F as [|b l bs out X F IH]; [reflexivity|]. cbn [map]. f_equal; [|exact IH].
  destruct X as [X Y]. unfold line_text, block_output. rewrite X, (Y Logic.I). reflexivity.
Qed.
Print Assumptions C58_indent.

(** After writing a node the number of open levels is what it was before. *)
Definition open_levels (s : state) : nat := length (i_stack s) - i_ded s + length (i_indenters s).
Theorem C58_balanced : forall iw si ma ic align ov cs e s d ws ls idx, printable ic e -> rel iw si False 0 d s ws ls ->
  exists s', output_node iw si ma ic align ov cs e idx s = Ok s' /\ open_levels s' = open_levels s.
Proof.
  intros iw si ma ic align ov cs e s d ws ls idx P R.
  destruct (node_ok iw si ma ic align ov cs False e d idx s ws ls P ltac:(tauto) R) as (s' & ws' & ls' & E & R' & _).
  exists s'. split; [exact E|]. unfold open_levels. rewrite <- (r_depth _ _ _ _ _ _ _ _ R), <- (r_depth _ _ _ _ _ _ _ _ R'). reflexivity.
Qed.
Print Assumptions C58_balanced.

(** ** Examples *)
Local Open Scope string_scope.
Definition txt' (s : string) : str := list_ascii_of_string s.
Definition note (t : string) : elem := E (Attrs Head 1 (Ok (txt' t)) [] None None false false [] [] [] [] []) [].
(** A block: [n] is written before every child and before the tail. *)
Definition blk (between : string) (kids : list elem) : elem :=
  E (Attrs Block 2 (Ok (txt' "{")) (txt' "}") None None false false [] (txt' between) (txt' between) (txt' between) []) kids.
Definition ic_ex (e : elem) : bool := Nat.eqb (a_id (attrs_of e)) 2.
Definition nls : string := String (ascii_of_nat 10) "".
Definition lines_of (l : list string) : str := flat_map (fun s => txt' s ++ [nl])%list l.
Definition show := indenter_write 2 0 16 ic_ex (fun _ => []) (fun _ => None) concat_default is_ws (State [] [] [] 0 [] false).
Definition show_align := indenter_write 2 0 16 ic_ex (fun _ => [0]) (fun _ => None) concat_default is_ws (State [] [] [] 0 [] false).

Example C58_witness :
  let e := blk " " [note "a"; blk nls [note "b"; blk nls [note "c"]; note "d"]] in
  printable ic_ex e /\ proper e /\ every_node (unaligned ic_ex (fun _ => [])) e /\
  show e = Ok (lines_of ["{ a {"; "    b"; "    {"; "      c"; "    }"; "    d"; "} }"]).
Proof.
  split; [|split; [|split; [|reflexivity]]]; cbn; repeat split; try discriminate; eauto.
Qed.

Example C57_witness :
  let e := blk " " [note "a"; blk nls [note "b"; note "c"]] in
  printable ic_ex e /\ proper e /\ has_origins e /\
  (exists ts, Forall2 is_text (texts e) ts /\ length ts = 7) /\
  (forall w, In (Want w) (flow ic_ex (fun _ => None) concat_default 0 e) -> blank w) /\
  (forall w, In (Req w) (layout concat_default e) -> blank w) /\
  show e = Ok (lines_of ["{ a {"; "    b"; "    c"; "} }"]).
Proof.
  split; [|split; [|split; [|split; [|split; [|split]]]]].
  1-3: cbn; repeat split; try discriminate; eauto; try (right; discriminate).
  - eexists. split; [cbn; repeat (constructor; [reflexivity|]); constructor|reflexivity].
  - intros w I. cbn in I. repeat (destruct I as [I|I]; [try discriminate; injection I as <-; intros c J; cbn in J; repeat (destruct J as [<-|J]; [reflexivity|]); destruct J|]). destruct I.
  - intros w I. cbn in I. repeat (destruct I as [I|I]; [try discriminate; injection I as <-; intros c J; cbn in J; repeat (destruct J as [<-|J]; [reflexivity|]); destruct J|]). destruct I.
  - reflexivity.
Qed.

(** A line that closes a level opened on an earlier line and opens a level: the next line is not aligned with the child
    but with what would be its column if the line had the indent of the outer level.  Here "e" should be below "d". *)
Theorem C58_alignment_finding :
  show_align (blk nls [note "a"; E (Attrs Plain 3 (Ok []) [] None None false false [] [] (txt' " ") [] [])
     [E (Attrs Block 2 (Ok (txt' "{")) (txt' "}") None None false false [] (txt' nls) (txt' " ") (txt' " ") []) [note "c"];
      E (Attrs Block 2 (Ok (txt' "{")) (txt' "}") None None false false [] (txt' " ") (txt' nls) (txt' " ") []) [note "d"; note "e"]]])
  = Ok (lines_of ["{"; "  a"; "  {"; "    c } { d"; "        e }"; "}"]).
Proof. reflexivity. Qed.
Print Assumptions C58_alignment_finding.

(** Indenting nodes without a tail, of which there are none in the repository, would not be closed properly:
    after everything is closed "x" is still indented. *)
Theorem C58_tailless_finding :
  let open_ t kids := E (Attrs Block 2 (Ok (txt' t)) [] None None false false [] [] [] [] []) kids in
  let closed b kids := E (Attrs Block 2 (Ok (txt' "(")) (txt' ")") None None false false [] (txt' b) (txt' b) (txt' b) []) kids in
  show (E (Attrs Plain 3 (Ok []) [] None None false false [] [] (txt' nls) [] [])
    [closed "" [open_ "p" [open_ "q" [E (Attrs Block 4 (Ok (txt' "<")) (txt' ">") None None false false [] [] [] (txt' nls) []) []]]];
     note "x"])
  = Ok (lines_of ["(pq<"; "      >)"; "      x"]).
Proof. reflexivity. Qed.
