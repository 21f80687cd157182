(** From pairs to the AST: termination, infix expressions, dot calls. *)
From Verif Require Import Base Ast SmError Peg Grammar Climber Build SpecPeg SpecClimb.
From Verif Require Import ProofPeg ProofSym ProofGrammar ProofClimber.
Local Open Scope Z_scope.
Local Open Scope outcome_scope.

(** ** No fuel is needed *)
Section Tree.
  Variable P : tree rule -> Prop.
  Hypothesis HP : forall r a b x l, Forall P l -> P (Node r a b x l).
  Fixpoint tree_ind' (t : tree rule) : P t :=
    match t with
    | Node r a b x l =>
        HP r a b x l ((fix all (l : list (tree rule)) : Forall P l :=
          match l with [] => Forall_nil _ | t :: l' => Forall_cons _ (tree_ind' t) (all l') end) l)
    end.
End Tree.

Lemma obind_fuel : forall A B (x : outcome A) (f : A -> outcome B),
  x <> OutOfFuel -> (forall a, f a <> OutOfFuel) -> obind x f <> OutOfFuel.
Proof. intros A B [a|k|] f H1 H2; cbn; [apply H2|discriminate|congruence]. Qed.
Lemma omapM_fuel : forall A B (f : A -> outcome B) l, Forall (fun a => f a <> OutOfFuel) l -> omapM f l <> OutOfFuel.
Proof.
  induction 1; cbn; [discriminate|]. apply obind_fuel; [assumption|]. intro b. apply obind_fuel; [assumption|discriminate].
Qed.
Lemma unwrap_fuel : forall A (o : option A), unwrap o <> OutOfFuel.
Proof. destruct o; discriminate. Qed.

Section NoFuel.
  Variable fname input : str.

  Ltac fuel := repeat first
    [ discriminate | apply unwrap_fuel | assumption
    | apply obind_fuel; [|intros]
    | match goal with |- context [if ?b then _ else _] => destruct b end ].

  Lemma prefix_map_fuel : forall t, prefix_map t <> OutOfFuel.
  Proof. intro t. unfold prefix_map. fuel. Qed.
  Lemma suffix_map_fuel : forall t, suffix_map t <> OutOfFuel.
  Proof. intro t. unfold suffix_map. fuel. Qed.
  Lemma infix_node_fuel : forall p a o b, infix_node p a o b <> OutOfFuel.
  Proof.
    intros p a o b. unfold infix_node, parse_dot_call. destruct (t_rule o); try discriminate.
    destruct b as [| |s [|q ps]| | | | |]; discriminate.
  Qed.

  Lemma parse_string_fuel : forall t, parse_string t <> OutOfFuel.
  Proof.
    intro t. unfold parse_string. generalize (@nil char) as s. induction (t_inner t) as [|c l IH]; intro s; cbn; [discriminate|].
    destruct (t_rule c); try discriminate; auto.
    - apply obind_fuel; [|auto]. unfold unquote. destruct (t_text c) as [|? [|? ?]]; discriminate.
    - apply obind_fuel; [|auto]. generalize s. induction (t_inner c) as [|d m IHm]; intro s0; cbn; [discriminate|].
      destruct (t_rule d); try discriminate; auto.
  Qed.
  Lemma parse_integer_fuel : forall t, parse_integer t <> OutOfFuel.
  Proof. intro. unfold parse_integer. fuel. Qed.
  Lemma parse_space_call_fuel : forall t, parse_space_call fname input t <> OutOfFuel.
  Proof.
    intro t. unfold parse_space_call. apply obind_fuel; [|discriminate]. apply omapM_fuel. apply Forall_forall. intros c _.
    destruct (t_rule c); try discriminate. apply obind_fuel; [apply parse_integer_fuel|discriminate].
  Qed.

  Section Rec.
    Variable rec : tree rule -> outcome ast.
    Let ok (t : tree rule) : Prop := rec t <> OutOfFuel.
    (** rec is fine on every proper part of t *)
    Fixpoint inside (n : nat) (t : tree rule) : Prop :=
      match n with
      | O => True
      | S m => Forall (fun c => ok c /\ inside m c) (t_inner t)
      end.

    Lemma parse_list_fuel : forall t, Forall ok (t_inner t) -> parse_list fname input rec t <> OutOfFuel.
    Proof.
      intros t H. unfold parse_list. apply obind_fuel; [|discriminate]. apply omapM_fuel.
      eapply Forall_impl; [|exact H]. intros c Hc. destruct (t_rule c); try discriminate.
      apply obind_fuel; [exact Hc|discriminate].
    Qed.

    Lemma parse_data_fuel : forall t, Forall (fun c => Forall ok (t_inner c)) (t_inner t) ->
      parse_data fname input rec t <> OutOfFuel.
    Proof.
      intros t H. unfold parse_data. destruct (t_inner t) as [|c l]; [discriminate|]. inversion H; subst.
      destruct (t_rule c); try discriminate.
      - apply parse_list_fuel. assumption.
      - unfold parse_decimal. fuel.
      - apply parse_integer_fuel.
      - unfold parse_byte. destruct (t_text c) as [|? [|b ds]]; fuel.
      - apply parse_string_fuel.
      - unfold parse_special. fuel.
      - unfold parse_slot. apply obind_fuel; [|discriminate]. apply omapM_fuel. apply Forall_forall. intros d _.
        destruct (t_rule d); try discriminate. fuel.
      - unfold parse_in_out.
        apply obind_fuel; [match goal with |- match ?x with _ => _ end <> _ => destruct x end; fuel|].
        intro i. apply obind_fuel; [|discriminate].
        destruct (filter (fun c0 : N => ((c0 =? 182) || (c0 =? 8267))%N) (t_text c)) as [|h hs]; [discriminate|].
        destruct h as [|p]; [discriminate|]. repeat (destruct p as [p|p|]; try discriminate).
    Qed.

    Lemma parse_apply_call_fuel : forall t,
      Forall (fun a => Forall (fun kv => Forall ok (t_inner kv)) (t_inner a)) (t_inner t) ->
      parse_apply_call fname input rec t <> OutOfFuel.
    Proof.
      intros t H. unfold parse_apply_call. destruct (t_inner t) as [|h l]; [discriminate|]. inversion H as [|? ? _ H1]; subst.
      apply obind_fuel; [|discriminate]. apply omapM_fuel. eapply Forall_impl; [|exact H1].
      intros c Hc. destruct (t_rule c); try discriminate. unfold parse_apply.
      apply obind_fuel; [|intros [? ?]; discriminate].
      generalize (@nil ast) as args, (@nil (ast * ast)) as kws. clear -Hc. induction Hc as [|kv l Hk Hl IH]; intros args kws; cbn; [discriminate|].
      destruct (t_rule kv); try discriminate; auto.
      apply obind_fuel.
      - unfold parse_apply_kv. clear IH. generalize EmptyStatement at 2 as key. generalize EmptyStatement as val.
        intros val key. revert val key.
        induction Hk as [|e m He Hm IHm]; intros val key; cbn; [discriminate|].
        destruct (t_rule e); try discriminate; auto. apply obind_fuel; [exact He|]. auto.
      - intros [k v]. destruct k; auto.
    Qed.

    Lemma parse_node_fuel : forall t, inside 4 t -> parse_node fname input rec t <> OutOfFuel.
    Proof.
      intros t H. unfold parse_node. cbn [inside] in H. destruct (t_inner t) as [|c l]; [discriminate|]. inversion H as [|? ? [H1 H2] _]; subst.
      assert (Hw : forall l, Forall (fun c => ok c /\ True) l -> Forall ok l).
      { intros l0 Hl. eapply Forall_impl; [|exact Hl]. intros a [? _]; assumption. }
      destruct (t_rule c); try discriminate.
      - exact H1.
      - apply parse_apply_call_fuel. eapply Forall_impl; [|exact H2]. intros a [_ Ha].
        eapply Forall_impl; [|exact Ha]. intros b [_ Hb]. apply Hw. exact Hb.
      - apply parse_space_call_fuel.
      - apply parse_data_fuel. eapply Forall_impl; [|exact H2]. intros a [_ Ha].
        eapply Forall_impl; [|exact Ha]. intros b [Hb _]. exact Hb.
    Qed.

    Lemma parse_slice_fuel : forall t, inside 3 t -> parse_slice fname input rec t <> OutOfFuel.
    Proof.
      intros t H. unfold parse_slice. apply obind_fuel; [|discriminate]. apply omapM_fuel.
      cbn [inside] in H. eapply Forall_impl; [|exact H]. intros c [_ Hc]. destruct (t_rule c); try discriminate.
      apply obind_fuel; [|discriminate]. unfold parse_index.
      generalize (Integer 1) at 1 as start. generalize (Integer 1) as step. generalize (ast_symbol (lit "std::core::All")) as stop.
      intros stop step start. revert stop step start.
      induction Hc as [|d l [Hd Hd2] Hl IH]; intros stop step start; cbn [parse_index_loop]; [discriminate|].
      destruct (t_rule d); try discriminate; auto;
        destruct (t_inner d) as [|e m]; try discriminate; inversion Hd2 as [|? ? [He _] _]; subst;
        apply obind_fuel; auto.
    Qed.

    Lemma parse_term_fuel : forall t, inside 5 t -> parse_term fname input rec t <> OutOfFuel.
    Proof.
      intros t H. unfold parse_term. generalize EmptyStatement as base. generalize (@nil (str * position)) as pre.
      remember 4%nat as n eqn:En. cbn [inside] in H.
      induction H as [|c l [_ Hc] Hl IH]; intros pre base; cbn [parse_term_loop].
      - revert base. induction pre as [|[a b] pre IHp]; intro base; cbn; [discriminate|].
        apply obind_fuel; [apply prefix_map_fuel|]. auto.
      - destruct (t_rule c); try discriminate; auto.
        + apply obind_fuel; [|auto]. subst n. apply parse_node_fuel. exact Hc.
        + apply obind_fuel; [|auto]. subst n. apply parse_slice_fuel. cbn [inside] in *.
          eapply Forall_impl; [|exact Hc]. intros a [Ha Hb]. split; [exact Ha|].
          eapply Forall_impl; [|exact Hb]. intros b [Hb1 Hb2]. split; [exact Hb1|].
          eapply Forall_impl; [|exact Hb2]. intros d [Hd _]. auto.
        + apply obind_fuel; [apply suffix_map_fuel|]. auto.
    Qed.
  End Rec.

  Lemma parse_expr_fuel : forall t, parse_expr fname input t <> OutOfFuel.
  Proof.
    (* the claim for a tree and everything below it *)
    assert (G : forall t n, parse_expr fname input t <> OutOfFuel /\ inside (parse_expr fname input) n t).
    2:{ intro t. exact (proj1 (G t 0%nat)). }
    intro t. induction t as [r a b x l IH] using tree_ind'. intro n.
    assert (Hi : forall n, inside (parse_expr fname input) n (Node r a b x l)).
    { intros [|m]; [exact I|]. cbn [inside t_inner]. eapply Forall_impl; [|exact IH]. intros c Hc. apply Hc. }
    split; [|apply Hi]. cbn [parse_expr]. apply climb_never_out_of_fuel; [intros; apply infix_node_fuel|].
    unfold fed. apply Forall_map. eapply Forall_impl; [|exact IH].
    intros c Hc. cbn [snd]. unfold primary. destruct (t_rule c); try discriminate.
    - exact (proj1 (Hc 0%nat)).
    - apply parse_term_fuel. exact (proj2 (Hc 5%nat)).
  Qed.

  Lemma parse_pairs_fuel : forall l, parse_pairs fname input l <> OutOfFuel.
  Proof.
    induction l as [|c l IH]; cbn; [discriminate|]. destruct (t_rule c); try discriminate; auto.
    apply obind_fuel; [|intros [? ?]; discriminate]. unfold parse_expression.
    generalize EmptyStatement as base. generalize false as eos. induction (t_inner c) as [|d m IHm]; intros eos base; cbn; [discriminate|].
    destruct (t_rule d); try discriminate; auto. apply obind_fuel; [apply parse_expr_fuel|]. auto.
  Qed.
End NoFuel.

Theorem parse_terminates : forall U fname text, parse U fname text <> OutOfFuel.
Proof.
  intros. unfold parse. pose proof (program_terminates U text). destruct (run_program U text); try discriminate; [|congruence].
  apply obind_fuel; [apply parse_pairs_fuel|discriminate].
Qed.

(** ** Infix expressions *)
Definition tree_ops (c : tree rule) : option (Z * assoc) := operators (t_rule c).

Lemma tree_same_assoc : forall a b, tree_ops a <> None -> tree_ops b <> None ->
  prec tree_ops a = prec tree_ops b -> rightp tree_ops a = rightp tree_ops b.
Proof. intros a b Ha Hb. apply (operators_same_assoc (t_rule a) (t_rule b) Ha Hb). Qed.
Lemma tree_prec_pos : forall o, 0 <= prec tree_ops o.
Proof. intro o. apply (operators_prec_pos (t_rule o)). Qed.

Theorem parse_expr_spec : forall fname input r a b x x0 l k,
  Forall (fun p => tree_ops (fst p) <> None) l ->
  match k with [] => True | o :: _ => tree_ops o = None end ->
  let e := Node r a b x (alternate x0 l ++ k) in
  exists t, well_bracketed (prec tree_ops) (rightp tree_ops) t /\ known tree_ops t /\ written t = alternate x0 l /\
    parse_expr fname input e =
    evaluate (primary fname input (parse_expr fname input)) (infix_node (get_position fname input e)) t.
Proof.
  intros fname input r a b x x0 l k Hl Hk e.
  exact (climb_spec tree_ops tree_same_assoc tree_prec_pos (primary fname input (parse_expr fname input))
           (infix_node (get_position fname input e)) x0 l k Hl Hk).
Qed.

(** ** The table of the specification *)
From Verif Require Import SpecParse.
Lemma supported_iff : forall o, supported o <-> tree_ops o <> None.
Proof.
  intros [r a b x l]. unfold supported, op_strength, tree_ops. cbn. destruct r; cbn; split; intro; try lia; congruence.
Qed.
Lemma well_bracketed_tables : forall (t : bracketing (tree rule)), known tree_ops t ->
  (well_bracketed (prec tree_ops) (rightp tree_ops) t <-> well_bracketed op_strength op_to_right t).
Proof.
  assert (O : forall a b, tree_ops a <> None -> tree_ops b <> None ->
    (prec tree_ops a > prec tree_ops b <-> op_strength a > op_strength b) /\
    (prec tree_ops a = prec tree_ops b <-> op_strength a = op_strength b) /\
    rightp tree_ops a = op_to_right a).
  { intros [ra ? ? ? ?] [rb ? ? ? ?]. unfold tree_ops, prec, rightp, op_strength, op_to_right. cbn.
    destruct ra; cbn; try congruence; destruct rb; cbn; try congruence; intros; repeat split; lia. }
  assert (R : forall t p, known tree_ops t -> root_op t = Some p -> tree_ops p <> None).
  { intros [x|l o r] p H E; [discriminate|]. cbn in *. injection E as <-. tauto. }
  induction t as [x|l IHl o r IHr]; intro K; [split; constructor|].
  cbn in K. destruct K as (K1 & K2 & K3). specialize (IHl K1). specialize (IHr K3).
  split; intro H; inversion H as [|? ? ? Hl Hr Cl Cr]; subst; constructor; try tauto;
    intros p Hp; assert (Kp : tree_ops p <> None) by (first [apply (R _ _ K1 Hp) | apply (R _ _ K3 Hp)]);
    destruct (O p o Kp K2) as (O1 & O2 & _); destruct (O o o K2 K2) as (_ & _ & O3).
  - destruct (Cl p Hp) as [?|[? ?]]; [left; tauto|right; split; [tauto|congruence]].
  - destruct (Cr p Hp) as [?|[? ?]]; [left; tauto|right; split; [tauto|congruence]].
  - destruct (Cl p Hp) as [?|[? ?]]; [left; tauto|right; split; [tauto|congruence]].
  - destruct (Cr p Hp) as [?|[? ?]]; [left; tauto|right; split; [tauto|congruence]].
Qed.

Lemma alternate_nth : forall (x0 : tree rule) l n, nth_error (alternate x0 l) (2 * n + 1) = nth_error (map fst l) n.
Proof.
  intros x0 l. unfold alternate. revert x0. induction l as [|[o x] l IH]; intros x0 n.
  - cbn [flat_map map]. rewrite (proj2 (nth_error_None [x0] (2 * n + 1))) by (cbn; lia). destruct n; reflexivity.
  - cbn [flat_map fst snd app map]. destruct n as [|n]; [reflexivity|].
    replace (2 * S n + 1)%nat with (S (S (2 * n + 1))) by lia. cbn [nth_error]. apply (IH x n).
Qed.
Lemma known_of_written : forall (t : bracketing (tree rule)) x0 l, written t = alternate x0 l ->
  Forall (fun p => tree_ops (fst p) <> None) l -> known tree_ops t.
Proof.
  intros t x0 l H Hl. assert (E : ops t = map fst l).
  { assert (HN : forall n, nth_error (ops t) n = nth_error (map fst l) n).
    { intro n. rewrite <- written_nth, H. apply alternate_nth. }
    clear -HN. revert HN. generalize (map fst l). induction (ops t) as [|a m IH]; intros [|b k] HN; auto.
    - specialize (HN 0%nat). discriminate.
    - specialize (HN 0%nat). discriminate.
    - f_equal; [specialize (HN 0%nat); cbn in HN; congruence|]. apply IH. intro n. apply (HN (S n)). }
  assert (A : Forall (fun o => tree_ops o <> None) (ops t)) by (rewrite E; apply Forall_map; exact Hl).
  clear -A. induction t as [x|l IHl o r IHr]; [exact I|]. cbn in *. apply Forall_app in A. destruct A as [A1 A2].
  inversion A2; subst. auto.
Qed.

Theorem expression_bracketing : forall fname input r a b x x0 l k,
  Forall (fun p => supported (fst p)) l ->
  match k with [] => True | o :: _ => ~ supported o end ->
  let e := Node r a b x (alternate x0 l ++ k) in
  exists t, well_bracketed op_strength op_to_right t /\ written t = alternate x0 l /\
    parse_expr fname input e =
    evaluate (primary fname input (parse_expr fname input)) (infix_node (get_position fname input e)) t /\
    (forall t', well_bracketed op_strength op_to_right t' -> written t' = alternate x0 l -> t' = t).
Proof.
  intros fname input r a b x x0 l k Hl Hk e.
  assert (Hl' : Forall (fun p => tree_ops (fst p) <> None) l).
  { eapply Forall_impl; [|exact Hl]. intros p Hp. apply supported_iff. exact Hp. }
  destruct (parse_expr_spec fname input r a b x x0 l k Hl') as (t & G & K & W & E).
  { destruct k as [|o k]; [exact I|]. destruct (tree_ops o) eqn:Eo; [|reflexivity].
    exfalso. apply Hk. apply supported_iff. congruence. }
  exists t. repeat split; auto.
  - apply well_bracketed_tables; assumption.
  - intros t' G' W'. pose proof (known_of_written _ _ _ W' Hl') as K'.
    apply (bracketing_unique tree_ops tree_same_assoc); auto.
    + apply well_bracketed_tables; assumption.
    + congruence.
Qed.

Theorem unsupported_truncates : forall fname input r a b x x0 l o k,
  Forall (fun p => supported (fst p)) l -> ~ supported o ->
  parse_expr fname input (Node r a b x (alternate x0 l ++ o :: k)) =
  parse_expr fname input (Node r a b x (alternate x0 l)).
Proof.
  intros fname input r a b x x0 l o k Hl Ho.
  destruct (expression_bracketing fname input r a b x x0 l (o :: k) Hl Ho) as (t & G & W & E & Q).
  destruct (expression_bracketing fname input r a b x x0 l [] Hl I) as (t' & G' & W' & E' & _).
  rewrite app_nil_r in E'. cbn zeta in *. rewrite E, E'. rewrite (Q t' G' W'). reflexivity.
Qed.

Theorem expression_precedence : forall fname input r a b x x0 l,
  Forall (fun p => supported (fst p)) l ->
  let e := Node r a b x (alternate x0 l) in
  exists t, well_bracketed op_strength op_to_right t /\ written t = alternate x0 l /\
    (forall t', well_bracketed op_strength op_to_right t' -> written t' = alternate x0 l -> t' = t) /\
    parse_expr fname input e =
    evaluate (primary fname input (parse_expr fname input)) (infix_node (get_position fname input e)) t.
Proof.
  intros fname input r a b x x0 l Hl e.
  destruct (expression_bracketing fname input r a b x x0 l [] Hl I) as (t & G & W & E & Q).
  rewrite app_nil_r in E. exists t. auto.
Qed.

Lemma unsupported_list : forall o,
  In (pair_rule o) [R_Set; R_Modulo; R_Grater; R_CenterDot; R_Kronecker; R_TensorProduct; R_Quotient; R_Equal; R_GraterEqual] ->
  ~ supported o.
Proof.
  intros o H. unfold supported, op_strength.
  repeat (destruct H as [H|H]; [rewrite <- H; lia|]). destruct H.
Qed.

Lemma dot_call : forall p lhs op rhs, pair_rule op = R_Dot ->
  infix_node p lhs op rhs =
  match rhs with
  | Sym f => Ret (Function f [mkParam [lhs] [] p])
  | Function f (mkParam args opts q :: more) => Ret (Function f (mkParam (lhs :: args) opts q :: more))
  | Function f [] => Panic PIndex
  | Integer i => Ret (Function (mkSymbol [lit "std"; lit "core"] (lit "index") Normal 0) [mkParam [lhs; Integer i] [] p])
  | _ => Panic PUnreachable
  end.
Proof.
  intros p lhs [r a b x l] rhs H. cbn in H. subst r. unfold infix_node, parse_dot_call. cbn [t_rule].
  destruct rhs as [| |s [|[args opts q] ps]| | | | |]; reflexivity.
Qed.

Lemma program_decides : forall U text,
  (exists s ts, run_program U text = POk s ts) \/ (exists s ts, run_program U text = PErr s ts).
Proof.
  intros. pose proof (program_terminates U text). pose proof (program_no_panic U text).
  destruct (run_program U text); try congruence; [left|right]; eauto.
Qed.

Lemma accepted_text : forall U text s ts,
  run_program U text = POk s ts ->
  rest s = [] /\ pos s = length text /\
  in_order 0 (length text) ts /\ Forall (well_spanned text) ts.
Proof.
  intros U text s ts H. split; [eapply program_consumes; exact H|]. eapply accepted_spans. exact H.
Qed.

Lemma spans_everywhere : forall U text n r k q p st s ts,
  (p <= length text)%nat ->
  run U grammar skip_body n (ECall r) k q (mkPs p (skipn p text) st) = POk s ts ->
  (p <= pos s <= length text)%nat /\ rest s = skipn (pos s) text /\
  in_order p (pos s) ts /\ Forall (well_spanned text) ts.
Proof.
  intros U text n r k q p st s ts Hp H.
  assert (G : good_res text (mkPs p (skipn p text) st) (POk s ts)).
  { rewrite <- H. apply run_good. split; [exact Hp|reflexivity]. }
  destruct G as ([L E] & LP & O & W). cbn [pos] in *. auto.
Qed.
