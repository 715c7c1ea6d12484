(** Theorems about variables: C75, C76, C77. *)
From Coq Require Import String Ascii List ZArith QArith Bool Lia.
From Verif Require Import Base Vars_Model Vars_Spec.
Import ListNotations.
Open Scope nat_scope.

(** ** Equality of names *)
Lemma str_eqb_eq a b : str_eqb a b = true <-> a = b.
Proof. unfold str_eqb. destruct (list_eq_dec ascii_dec a b); split; congruence. Qed.
Lemma item_eqb_eq a b : item_eqb a b = true <-> a = b.
Proof.
  destruct a as [s|x|x], b as [t|y|y]; cbn [item_eqb]; try (split; intros H; discriminate).
  - rewrite str_eqb_eq. split; [intros ->; reflexivity|intros [= ->]; reflexivity].
  - rewrite Z.eqb_eq. split; [intros ->; reflexivity|intros [= ->]; reflexivity].
  - rewrite Nat.eqb_eq. split; [intros ->; reflexivity|intros [= ->]; reflexivity].
Qed.
Lemma items_eqb_eq a b : items_eqb a b = true <-> a = b.
Proof.
  revert b. induction a as [|x a IH]; intros [|y b]; cbn [items_eqb]; try (split; intros H; (discriminate || reflexivity)). rewrite andb_true_iff, item_eqb_eq, IH. split; [intros (-> & ->); reflexivity|intros [= -> ->]; auto].
Qed.
Lemma name_eqb_eq a b : name_eqb a b = true <-> a = b.
Proof.
  destruct a as [i|l], b as [j|m]; cbn [name_eqb]; try (split; intros H; discriminate).
  - rewrite item_eqb_eq. split; [intros ->; reflexivity|intros [= ->]; reflexivity].
  - rewrite items_eqb_eq. split; [intros ->; reflexivity|intros [= ->]; reflexivity].
Qed.
Lemma name_eqb_refl a : name_eqb a a = true. Proof. apply name_eqb_eq. reflexivity. Qed.

Section Props.
Variable is_symbol : str -> bool.

(** ** C75: names *)
Lemma heads_nodes l : Forall good_item l -> get_list (filter_map (make_list_node is_symbol) l) = l.
Proof.
  induction 1 as [|i l G F IH]; [reflexivity|]. destruct i as [s|z|x]; [| |destruct G]; cbn [filter_map make_list_node]; [destruct (is_symbol s)|]; unfold get_list; cbn [filter_map head_of]; f_equal; exact IH.
Qed.
Lemma get_list_app a b : get_list (a ++ b) = get_list a ++ get_list b.
Proof. unfold get_list. induction a as [|x a IH]; [reflexivity|]. cbn [app filter_map]. destruct (head_of x); rewrite IH; reflexivity. Qed.
Lemma heads_separated f nodes : (forall n, head_of (f n) = None) -> get_list (flat_map (fun n => [f n; n]) nodes) = get_list nodes.
Proof. intros H. induction nodes as [|n nodes IH]; [reflexivity|]. cbn [flat_map app]. unfold get_list in *. cbn [filter_map]. rewrite H. destruct (head_of n); rewrite IH; reflexivity. Qed.
Lemma get_set_list l : Forall good_item l -> get_list (set_list is_symbol l) = l.
Proof.
  intros F. pose proof (heads_nodes l F) as H. unfold set_list. destruct (filter_map (make_list_node is_symbol) l) as [|n nodes]; [exact H|].
  rewrite <- H. change (n :: flat_map (fun n => [separator n; n]) nodes) with ([n] ++ flat_map (fun n => [separator n; n]) nodes). change (n :: nodes) with ([n] ++ nodes). rewrite !get_list_app. f_equal.
  apply heads_separated. reflexivity.
Qed.
(** get_name() returns what was given to set_name(). *)
Theorem C75_name : forall n, good_name n -> exists l, set_name is_symbol n = Ok l /\ get_name l = n.
Proof.
  intros [[s|z|x]|l] G; try destruct G as [].
  - eexists. split; [reflexivity|]. unfold get_name. rewrite get_set_list by (repeat constructor). reflexivity.
  - eexists. split; [reflexivity|]. unfold get_name. rewrite get_set_list by assumption. destruct l as [|i [|j l]]; try reflexivity. cbn in *. lia.
Qed.
(** The same for references; only an empty name is not set. *)
Theorem C75_reference : is_symbol [] = false -> forall h n, good_name n -> n <> Tuple [] ->
  exists h' l, ref_set_name is_symbol h n = Ok (h', l) /\ ref_get_name h' l = n.
Proof.
  intros SE h n G NE.
  assert (H : forall l, Forall good_item l -> l <> [] -> exists h' r, match filter_map (make_list_node is_symbol) l with [] => Ok (h, []) | n :: nodes =>
      let rest := flat_map (fun n => [Separator dot; n]) nodes in match n with Symbol s => Ok (s, rest) | _ => Ok ([], n :: rest) end end = Ok (h', r) /\ ref_get_name h' r = of_heads l).
  { intros l F N. pose proof (heads_nodes l F) as X. destruct l as [|i l]; [congruence|]. clear N.
    assert (X' : get_list (filter_map (make_list_node is_symbol) l) = l) by (apply heads_nodes; inversion F; assumption).
    assert (I := Forall_inv F). cbn beta in I. unfold ref_get_name. destruct i as [s|z|x]; [| |destruct I]; cbn [filter_map make_list_node].
    - destruct (is_symbol s) eqn:SS; cbn zeta; do 2 eexists; (split; [reflexivity|]).
      + rewrite heads_separated by reflexivity. rewrite X'. destruct s; [congruence|reflexivity].
      + cbn [app]. unfold get_list at 1. cbn [filter_map head_of]. fold (get_list (flat_map (fun n => [Separator dot; n]) (filter_map (make_list_node is_symbol) l))). rewrite heads_separated by reflexivity. rewrite X'. reflexivity.
    - cbn zeta. do 2 eexists. split; [reflexivity|]. cbn [app]. unfold get_list at 1. cbn [filter_map head_of]. fold (get_list (flat_map (fun n => [Separator dot; n]) (filter_map (make_list_node is_symbol) l))). rewrite heads_separated by reflexivity. rewrite X'. reflexivity. }
  unfold ref_set_name. destruct n as [[s|z|x]|l]; try destruct G as [].
  - apply (H [IStr s]); [repeat constructor|discriminate].
  - destruct (H l) as (h' & r & E & Q); [assumption|congruence|]. exists h', r. split; [exact E|]. rewrite Q. destruct l as [|i [|j l]]; try reflexivity. cbn in *. lia.
Qed.

(** ** C76: values *)
(** A value that is converted to an element and back is the same. *)
Theorem C76_value : forall v, good_value v -> exists e, create_element v = Ok e /\ create_value e = Some v.
Proof.
  intros [n|s|q|n u|e|x] G; try destruct G.
  - destruct n; eexists; (split; [reflexivity|reflexivity]).
  - eexists. split; reflexivity.
  - destruct n as [b|z|f]; [destruct G| |]; cbn [create_element]; (assert (existsb (str_eqb u) units = true) as -> by (apply existsb_exists; exists u; split; [exact G|apply str_eqb_eq; reflexivity])); eexists; (split; [reflexivity|reflexivity]).
Qed.

(** ** Lookup in a block *)
Lemma ident_complete l cs v : Forall comment cs -> match v with Identifier _ => False | _ => True end -> identifiers (Identifier l :: cs ++ [EqualSign; v]) = [l].
Proof.
  intros C V. unfold identifiers. cbn [filter_map]. f_equal. induction C as [|c cs C1 C IH]; [destruct v; try reflexivity; destruct V|]. destruct c; try destruct C1. exact IH.
Qed.
Lemma value_complete l cs v : Forall comment cs -> asg_get_value (Identifier l :: cs ++ [EqualSign; v]) = Some v.
Proof. intros C. cbn [asg_get_value]. induction C as [|c cs C1 C IH]; [reflexivity|]. destruct c; try destruct C1. exact IH. Qed.
Lemma set_last_complete l cs v w : set_last (Identifier l :: cs ++ [EqualSign; v]) w = Ok (Identifier l :: cs ++ [EqualSign; w]).
Proof.
  assert (H : forall pre x, set_last (pre ++ [x]) w = Ok (pre ++ [w])). { induction pre as [|y pre IH]; intros x; [reflexivity|]. cbn [app set_last]. rewrite IH. destruct (pre ++ [x]) eqn:E; [destruct pre; discriminate|reflexivity]. }
  change (Identifier l :: cs ++ [EqualSign; v]) with ((Identifier l :: cs) ++ [EqualSign] ++ [v]). rewrite app_assoc, H, <- app_assoc. reflexivity.
Qed.
Lemma matches_complete nm l cs v : Forall comment cs -> match v with Identifier _ => False | _ => True end ->
  matches nm (Assignment (Identifier l :: cs ++ [EqualSign; v])) = name_eqb (get_name l) nm.
Proof. intros C V. cbn [matches]. rewrite (ident_complete _ _ _ C V). cbn. apply orb_false_r. Qed.

Definition plain (e : el) : Prop := match e with Identifier _ => False | _ => True end.
Lemma replace_spec nm node kids e : Forall complete kids -> plain node -> find_assignment nm kids = Some e ->
  exists l cs v k1 k2, kids = k1 ++ Assignment (Identifier l :: cs ++ [EqualSign; v]) :: k2 /\ get_name l = nm /\ Forall comment cs /\ plain v /\
    (forall x, In x k1 -> matches nm x = false) /\ replace_first nm node kids = Ok (k1 ++ Assignment (Identifier l :: cs ++ [EqualSign; node]) :: k2).
Proof.
  intros F P. induction F as [|x kids C F IH]; [discriminate|]. unfold find_assignment. cbn [find replace_first]. destruct (matches nm x) eqn:M.
  - intros _. destruct x; try discriminate. destruct C as (il & cs & v & -> & CS & V). rewrite (matches_complete _ _ _ _ CS V) in M. apply name_eqb_eq in M. rewrite set_last_complete. cbn [bindr].
    exists il, cs, v, [], kids. repeat split; auto. intros x [].
  - intros E. destruct (IH E) as (l & cs & v & k1 & k2 & -> & A & B & V & D & R). rewrite R. cbn [bindr]. exists l, cs, v, (x :: k1), k2. repeat split; auto. intros y [<-|I]; auto.
Qed.
Lemma find_skip nm k1 e k2 : (forall x, In x k1 -> matches nm x = false) -> find_assignment nm (k1 ++ e :: k2) = if matches nm e then Some e else find_assignment nm k2.
Proof. intros H. unfold find_assignment. induction k1 as [|x k1 IH]; [reflexivity|]. cbn [app find]. rewrite (H x (or_introl eq_refl)). apply IH. intros y I. apply H. right. exact I. Qed.
Lemma find_app nm k1 k2 : find_assignment nm (k1 ++ k2) = match find_assignment nm k1 with Some e => Some e | None => find_assignment nm k2 end.
Proof. unfold find_assignment. induction k1 as [|x k1 IH]; [reflexivity|]. cbn [app find]. destruct (matches nm x); [reflexivity|exact IH]. Qed.

Lemma good_value_plain v e : good_value v -> create_element v = Ok e -> plain e.
Proof.
  destruct v as [n|s|q|n u|x|x]; intros G E; try destruct G; cbn [create_element] in E.
  - injection E as <-. destruct n; exact Logic.I.
  - injection E as <-. exact Logic.I.
  - destruct (existsb (str_eqb u) units); [|discriminate]. injection E as <-. destruct n; exact Logic.I.
Qed.

Lemma matches_new nm l v : plain v -> matches nm (Assignment [Identifier l; EqualSign; v]) = name_eqb (get_name l) nm.
Proof. apply (matches_complete nm l [] v (Forall_nil _)). Qed.

(** ** C77: variables in a block *)

(** A variable that is set has that value. *)
Theorem C77_set_get : forall nm v kids, Forall complete kids -> good_name nm -> good_value v ->
  exists kids', set_variable is_symbol nm v kids = Ok kids' /\ get_variable nm kids' = Some v /\ Forall complete kids'.
Proof.
  intros nm v kids F G V. destruct (C76_value v V) as (node & E & EV). pose proof (good_value_plain v node V E) as P. unfold set_variable. rewrite E. cbn [bindr].
  destruct (find_assignment nm kids) as [e|] eqn:FA.
  - destruct (replace_spec nm node kids e F P FA) as (l & cs & w & k1 & k2 & -> & NL & CS & W & NM & ->). eexists. split; [reflexivity|]. split.
    + unfold get_variable. rewrite (find_skip _ _ _ _ NM), (matches_complete _ _ _ _ CS P), NL, name_eqb_refl. rewrite (value_complete _ _ _ CS), EV. reflexivity.
    + apply Forall_app in F. destruct F as (F1 & F2). apply Forall_app. split; [exact F1|]. constructor; [exists l, cs, node; auto|inversion F2; assumption].
  - destruct (C75_name nm G) as (l & SL & GL). unfold with_name. rewrite SL. cbn [bindr]. eexists. split; [reflexivity|]. split.
    + unfold get_variable. rewrite find_app, FA. unfold find_assignment. cbn [find]. rewrite (matches_new nm l node P), GL, name_eqb_refl. cbn [asg_get_value hd_error]. rewrite EV. reflexivity.
    + apply Forall_app. split; [exact F|]. constructor; [exists l, [], node; auto|constructor].
Qed.
(** The other variables keep their values. *)
Theorem C77_set_other : forall nm nm' v kids kids', Forall complete kids -> good_name nm -> good_value v -> nm' <> nm ->
  set_variable is_symbol nm v kids = Ok kids' -> get_variable nm' kids' = get_variable nm' kids.
Proof.
  intros nm nm' v kids kids' F G V NE. destruct (C76_value v V) as (node & E & EV). pose proof (good_value_plain v node V E) as P. unfold set_variable. rewrite E. cbn [bindr].
  assert (X : name_eqb nm nm' = false) by (destruct (name_eqb nm nm') eqn:Y; [apply name_eqb_eq in Y; congruence|reflexivity]).
  destruct (find_assignment nm kids) as [e|] eqn:FA.
  - destruct (replace_spec nm node kids e F P FA) as (l & cs & w & k1 & k2 & -> & NL & CS & W & NM & ->). intros [= <-]. unfold get_variable. rewrite !find_app. destruct (find_assignment nm' k1); [reflexivity|].
    unfold find_assignment. cbn [find]. rewrite (matches_complete _ _ _ _ CS P), (matches_complete _ _ _ _ CS W), NL, X. reflexivity.
  - destruct (C75_name nm G) as (l & SL & GL). unfold with_name. rewrite SL. cbn [bindr]. intros [= <-]. unfold get_variable. rewrite find_app. destruct (find_assignment nm' kids); [reflexivity|].
    unfold find_assignment. cbn [find]. rewrite (matches_new nm' l node P), GL, X. reflexivity.
Qed.
(** Its name is in the list of variables, once more only if it was not there. *)
Lemma variables_app k1 k2 : variables (k1 ++ k2) = variables k1 ++ variables k2.
Proof. unfold variables. apply flat_map_app. Qed.
Lemma find_variables nm kids : find_assignment nm kids = None <-> ~ In nm (variables kids).
Proof.
  induction kids as [|e kids IH]; [split; [intros _ []|reflexivity]|]. unfold find_assignment in *. change (e :: kids) with ([e] ++ kids). rewrite variables_app. cbn [app find].
  assert (H : matches nm e = true <-> In nm (variables [e])).
  { unfold variables. cbn [flat_map]. rewrite app_nil_r. destruct e; cbn [matches]; try (split; [discriminate|intros []]). rewrite existsb_exists, in_map_iff. split; intros (x & A & B); exists x; [apply name_eqb_eq in B; auto|split; [exact B|apply name_eqb_eq; exact A]]. }
  rewrite in_app_iff. destruct (matches nm e); split.
  - discriminate.
  - intros X. exfalso. apply X. left. apply H. reflexivity.
  - intros X [Y|Y]; [apply H in Y; discriminate|apply IH in X; auto].
  - intros X. apply IH. intros Y. apply X. right. exact Y.
Qed.
Theorem C77_set_variables : forall nm v kids kids', Forall complete kids -> good_name nm -> good_value v -> set_variable is_symbol nm v kids = Ok kids' ->
  (In nm (variables kids) -> variables kids' = variables kids) /\ (~ In nm (variables kids) -> variables kids' = variables kids ++ [nm]).
Proof.
  intros nm v kids kids' F G V. destruct (C76_value v V) as (node & E & EV). pose proof (good_value_plain v node V E) as P. unfold set_variable. rewrite E. cbn [bindr].
  destruct (find_assignment nm kids) as [e|] eqn:FA.
  - destruct (replace_spec nm node kids e F P FA) as (l & cs & w & k1 & k2 & -> & NL & CS & W & NM & ->). intros [= <-]. split.
    + intros _. change (Assignment (Identifier l :: cs ++ [EqualSign; node]) :: k2) with ([Assignment (Identifier l :: cs ++ [EqualSign; node])] ++ k2). change (Assignment (Identifier l :: cs ++ [EqualSign; w]) :: k2) with ([Assignment (Identifier l :: cs ++ [EqualSign; w])] ++ k2).
      rewrite !variables_app. f_equal. f_equal. unfold variables. cbn [flat_map]. rewrite (ident_complete _ _ _ CS P), (ident_complete _ _ _ CS W). reflexivity.
    + intros X. apply find_variables in X. congruence.
  - destruct (C75_name nm G) as (l & SL & GL). unfold with_name. rewrite SL. cbn [bindr]. intros [= <-]. split; [intros X; exfalso; apply find_variables in FA; auto|]. intros _. rewrite variables_app. f_equal.
    unfold variables. cbn [flat_map]. pose proof (ident_complete l [] node (Forall_nil _) P) as IC. cbn [app] in IC. rewrite IC. cbn. rewrite GL. reflexivity.
Qed.
(** A variable that is unset (and was assigned once) has no value any more, and the others keep theirs.
    Missing for the full claim: names that are assigned more than once (C77_twice_finding). *)
Theorem C77_unset_partial : forall nm kids, Forall complete kids -> NoDup (variables kids) -> get_variable nm (unset_variable nm kids) = None /\ ~ In nm (variables (unset_variable nm kids)).
Proof.
  intros nm kids F ND. assert (H : find_assignment nm (unset_variable nm kids) = None).
  { induction F as [|x kids C F IH]; [reflexivity|]. change (x :: kids) with ([x] ++ kids) in ND. rewrite variables_app in ND. cbn [unset_variable]. destruct (matches nm x) eqn:M.
    - apply find_variables. intros I. destruct x; try discriminate. destruct C as (il & cs & v & -> & CS & V). rewrite (matches_complete _ _ _ _ CS V) in M. apply name_eqb_eq in M.
      unfold variables at 1 in ND. cbn [flat_map] in ND. rewrite (ident_complete _ _ _ CS V) in ND. cbn in ND. rewrite M in ND. inversion ND. contradiction.
    - unfold find_assignment. cbn [find]. rewrite M. apply IH. clear -ND. revert ND. generalize (variables [x]). induction l; [auto|]. intros N. inversion N. auto. }
  split; [unfold get_variable; rewrite H; reflexivity|apply find_variables; exact H].
Qed.
Theorem C77_unset_other : forall nm nm' kids, Forall complete kids -> nm' <> nm -> get_variable nm' (unset_variable nm kids) = get_variable nm' kids.
Proof.
  intros nm nm' kids F NE. assert (H : find_assignment nm' (unset_variable nm kids) = find_assignment nm' kids); [|unfold get_variable; rewrite H; reflexivity].
  induction F as [|x kids C F IH]; [reflexivity|]. cbn [unset_variable]. unfold find_assignment in *. cbn [find]. destruct (matches nm x) eqn:M.
  - destruct x; try discriminate. destruct C as (il & cs & v & -> & CS & V). rewrite (matches_complete _ _ _ _ CS V) in M. rewrite (matches_complete nm' _ _ _ CS V). apply name_eqb_eq in M. rewrite M.
    destruct (name_eqb nm nm') eqn:Y; [apply name_eqb_eq in Y; congruence|reflexivity].
  - cbn [find]. destruct (matches nm' x); [reflexivity|exact IH].
Qed.
End Props.
Print Assumptions C75_name.
Print Assumptions C75_reference.
Print Assumptions C76_value.
Print Assumptions C77_set_get.
Print Assumptions C77_set_other.
Print Assumptions C77_set_variables.
Print Assumptions C77_unset_partial.
Print Assumptions C77_unset_other.

Definition sym (s : str) : bool := match s with [] => false | _ => true end.
Example C75_witness : good_name (Tuple [IStr (txt "music"); IInt 1]) /\ set_name sym (Tuple [IStr (txt "music"); IInt 1]) = Ok [Symbol (txt "music"); Separator (txt ","); Int 1 None].
Proof. split; [split; [repeat constructor|discriminate]|reflexivity]. Qed.
Example C76_witness : Forall good_value [PNum (NBool true); PNum (NInt (-3)); PStr (txt "x"); PTuple (NInt 2) (txt "mm")] /\
  create_element (PTuple (NInt 2) (txt "mm")) <> create_element (PNum (NInt 2)) /\ create_element (PNum (NBool true)) = Ok (SchemeBool true).
Proof. split; [repeat constructor|split; [discriminate|reflexivity]]. Qed.

Example C77_witness :
  let header := [Assignment [Identifier [Symbol (txt "title")]; Comment (txt "%{ %}"); EqualSign; EString (txt "x")]; OtherElement 3] in
  Forall complete header /\
  set_variable sym (One (IStr (txt "composer"))) (PStr (txt "y")) header =
    Ok (header ++ [Assignment [Identifier [Symbol (txt "composer")]; EqualSign; EString (txt "y")]]) /\
  set_variable sym (One (IStr (txt "title"))) (PNum (NBool false)) header =
    Ok [Assignment [Identifier [Symbol (txt "title")]; Comment (txt "%{ %}"); EqualSign; SchemeBool false]; OtherElement 3].
Proof. split; [repeat constructor; exists [Symbol (txt "title")], [Comment (txt "%{ %}")], (EString (txt "x")); repeat constructor|split; reflexivity]. Qed.

(** Finding: a tuple of one name is not found again, so setting it twice makes two assignments. *)
Theorem C75_singleton_finding : let nm := Tuple [IStr (txt "a")] in
  exists l k1 k2, set_name sym nm = Ok l /\ get_name l <> nm /\
    set_variable sym nm (PNum (NInt 1)) [] = Ok k1 /\ get_variable nm k1 = None /\ set_variable sym nm (PNum (NInt 2)) k1 = Ok k2 /\ length k2 = 2.
Proof. do 3 eexists. split; [reflexivity|]. split; [discriminate|]. split; [reflexivity|]. repeat split. Qed.
Print Assumptions C75_singleton_finding.
(** Finding: a truth value with a unit loses the unit. *)
Theorem C76_unit_finding : create_element (PTuple (NBool true) (txt "mm")) = Ok (SchemeBool true).
Proof. reflexivity. Qed.
Print Assumptions C76_unit_finding.
(** Finding: of two assignments to the same variable get_variable() gives the first, LilyPond uses the second; and unset_variable() removes
    only the first. *)
Theorem C77_twice_finding : let a v := Assignment [Identifier [Symbol (txt "a")]; EqualSign; Int v None] in let nm := One (IStr (txt "a")) in
  get_variable nm [a 1%Z; a 2%Z] = Some (PNum (NInt 1)) /\ get_variable nm (unset_variable nm [a 1%Z; a 2%Z]) = Some (PNum (NInt 2)).
Proof. split; reflexivity. Qed.
Print Assumptions C77_twice_finding.
(** Finding: with a comment after the equal sign, the value of the assignment is the comment; and setting the variable does
    not change it. *)
Theorem C77_comment_finding : let a v := Assignment [Identifier [Symbol (txt "a")]; EqualSign; Comment (txt "%{ %}"); Int v None] in let nm := One (IStr (txt "a")) in
  get_variable nm [a 1%Z] = Some (PNode (Comment (txt "%{ %}"))) /\
  set_variable sym nm (PNum (NInt 2)) [a 1%Z] = Ok [a 2%Z] /\ get_variable nm [a 2%Z] = Some (PNode (Comment (txt "%{ %}"))).
Proof. repeat split. Qed.
Print Assumptions C77_comment_finding.

(** ** C78: finding the assignments in a list of nodes *)
Lemma comment_is e : is_comment e = true <-> comment e.
Proof. destruct e; cbn; split; intros H; auto; discriminate || destruct H. Qed.
Lemma not_comment e : is_comment e = false <-> ~ comment e.
Proof. destruct e; cbn; split; intros H; auto; try discriminate; exfalso; auto. Qed.
Lemma names_is e : names e <-> variable_of e <> None.
Proof. destruct e; cbn; split; intros H; auto; try discriminate; try destruct H; congruence. Qed.
Lemma not_names e : ~ names e <-> variable_of e = None.
Proof. destruct e; cbn; split; intros H; auto; try discriminate; exfalso; auto. Qed.
Lemma handle_comments first l cs : Forall comment cs -> forall rest eq ns, handle (Reading first l rest eq) (cs ++ ns) = handle (Reading first l (rev cs ++ rest) eq) ns.
Proof. induction 1 as [|c cs C F IH]; intros rest eq ns; [reflexivity|]. cbn [app handle]. rewrite (proj2 (comment_is c) C), IH. cbn [rev]. rewrite <- app_assoc. reflexivity. Qed.
Lemma handle_asg first cs1 cs2 v ns : good_segment (Asg first cs1 cs2 v) -> handle Idle (written (Asg first cs1 cs2 v) ++ ns) = parsed (Asg first cs1 cs2 v) :: handle Idle ns.
Proof.
  intros (V & C & NC). apply names_is in V. apply not_comment in NC. apply Forall_app in C. destruct C as (C1 & C2). cbn [written app handle]. destruct (variable_of first) as [l|] eqn:VF; [|congruence].
  assert (L : l = match first with EList l => l | _ => [first] end) by (destruct first; cbn in VF; congruence).
  rewrite <- app_assoc, handle_comments by exact C1. cbn [app handle is_comment]. rewrite <- app_assoc, handle_comments by exact C2. cbn [app handle]. rewrite NC. rewrite app_nil_r. cbn [parsed rev]. rewrite rev_app_distr. cbn [rev]. rewrite !rev_involutive, L, <- !app_assoc. reflexivity.
Qed.
(** Every assignment, with comments anywhere, is found.
    Missing for the full claim: an assignment directly after a name or string (C78_name_finding). *)
Theorem C78_complete_partial : forall l, Forall good_segment l -> handle_assignments (flat_map written l) = map parsed l.
Proof.
  unfold handle_assignments. induction 1 as [|s l G F IH]; [reflexivity|]. cbn [flat_map map]. destruct s as [e|first cs1 cs2 v].
  - cbn [written app handle parsed]. cbn in G. apply not_names in G. rewrite G, IH. reflexivity.
  - rewrite (handle_asg _ _ _ _ _ G), IH. reflexivity.
Qed.
Print Assumptions C78_complete_partial.
(** No node is lost, added or moved: the result is the list with some names, equal signs and values put together. *)
Lemma keep_all a : forall ins outs, grouped ins outs -> grouped (a ++ ins) (a ++ outs).
Proof. induction a; intros; [assumption|]. cbn. constructor. auto. Qed.
Theorem C78_sound : forall nodes, grouped nodes (handle_assignments nodes).
Proof.
  unfold handle_assignments.
  assert (H : forall nodes, grouped nodes (handle Idle nodes) /\ forall first l rest eq, variable_of first = Some l ->
    (eq = false /\ Forall comment rest \/ eq = true /\ exists cs1 cs2, rest = rev cs2 ++ EqualSign :: rev cs1 /\ Forall comment (cs1 ++ cs2)) ->
    grouped (first :: rev rest ++ nodes) (handle (Reading first l rest eq) nodes)).
  { induction nodes as [|n nodes (IH1 & IH2)].
    - split; [constructor|]. intros. cbn [handle]. rewrite app_nil_r. rewrite <- (app_nil_r (first :: rev rest)). apply keep_all. constructor.
    - split.
      + cbn [handle]. destruct (variable_of n) as [l|] eqn:V; [|constructor; exact IH1]. apply (IH2 n l [] false V). left. auto.
      + intros first l rest eq V C. cbn [handle]. destruct (is_comment n) eqn:NC; [apply comment_is in NC|apply not_comment in NC].
        * replace (rev rest ++ n :: nodes) with (rev (n :: rest) ++ nodes) by (cbn [rev]; rewrite <- app_assoc; reflexivity). apply IH2; [exact V|]. destruct C as [(-> & C)|(-> & cs1 & cs2 & -> & C)]; [left; auto|right]. split; [reflexivity|].
          exists cs1, (cs2 ++ [n]). split; [rewrite rev_app_distr; reflexivity|]. rewrite app_assoc. apply Forall_app. split; [exact C|constructor; [exact NC|constructor]].
        * destruct C as [(-> & C)|(-> & cs1 & cs2 & -> & C)].
          -- assert (K : grouped (first :: rev rest ++ n :: nodes) ((first :: rev (n :: rest)) ++ handle Idle nodes)).
             { cbn [rev]. change ((first :: rev rest ++ [n]) ++ handle Idle nodes) with (first :: (rev rest ++ [n]) ++ handle Idle nodes). rewrite <- app_assoc. cbn [app]. constructor. apply keep_all. constructor. exact IH1. }
             destruct n; try exact K. replace (rev rest ++ EqualSign :: nodes) with (rev (EqualSign :: rest) ++ nodes) by (cbn [rev]; rewrite <- app_assoc; reflexivity). apply IH2; [exact V|]. right. split; [reflexivity|].
             exists (rev rest), []. cbn [rev app]. rewrite rev_involutive, app_nil_r. split; [reflexivity|]. apply Forall_rev. exact C.
          -- assert (G : good_segment (Asg first cs1 cs2 n)) by (split; [apply names_is; congruence|auto]). pose proof (grouped_assignment first cs1 cs2 n nodes (handle Idle nodes) G IH1) as X.
             assert (L : l = match first with EList l => l | _ => [first] end) by (destruct first; cbn in V; congruence).
             cbn [written parsed] in X. rewrite <- L in X. cbn [rev] in *. rewrite rev_app_distr. cbn [rev]. rewrite !rev_involutive. repeat (rewrite <- app_assoc in X || cbn [app] in X). repeat (rewrite <- app_assoc || cbn [app]). exact X. }
  intros nodes. apply H.
Qed.
Print Assumptions C78_sound.
Example C78_witness : let a := Asg (Symbol (txt "a")) [] [Comment (txt "%")] (EString (txt "b")) in
  Forall good_segment [a; Plain (OtherElement 1); a] /\
  handle_assignments [Symbol (txt "a"); EqualSign; Comment (txt "%"); EString (txt "b"); OtherElement 1] = [Assignment [Identifier [Symbol (txt "a")]; EqualSign; Comment (txt "%"); EString (txt "b")]; OtherElement 1].
Proof. split; [|reflexivity]. repeat constructor; cbn; auto. Qed.
(** Finding: an assignment directly after a name is not found. *)
Theorem C78_name_finding : let a := Asg (Symbol (txt "a")) [] [] (Int 5 None) in
  handle_assignments (EString (txt "x") :: written a) = EString (txt "x") :: written a.
Proof. reflexivity. Qed.
Print Assumptions C78_name_finding.
