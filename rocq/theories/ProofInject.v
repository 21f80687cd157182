(** Trees with the same export. *)
From Verif Require Import Base Ast SmError Peg Build Display Wolfram SpecAst SpecSyntax SpecReply SpecImage SpecExport.
From Verif Require Import ProofDisplay ProofAst ProofReply ProofSample ProofImage ProofRange.
Local Open Scope Z_scope.

(** ** Decimals *)
Lemma dot_once : forall x y x' y', Forall is_digit x -> Forall is_digit x' -> x ++ lit "." ++ y = x' ++ lit "." ++ y' -> x = x' /\ y = y'.
Proof.
  induction x as [|c x IH]; intros y [|c' x'] y' D D' E; cbn in E.
  - injection E as E. auto.
  - exfalso. injection E as E _. subst. inversion D' as [|? ? [A B] _]. lia.
  - exfalso. injection E as E _. subst. inversion D as [|? ? [A B] _]. lia.
  - injection E as -> E. inversion D; inversion D'; subst. destruct (IH y x' y') as [-> ->]; auto.
Qed.
Definition form (i k : Z) (t : str) : Prop := exists x y, x <> [] /\ Forall is_digit x /\ Forall is_digit y /\ numeral_value (x ++ y) = Z.abs i /\ Z.of_nat (length y) = k /\
  signed i (match y with [] => x | _ => x ++ lit "." ++ y end) t.
Lemma shown_form : forall i k t, 0 <= k -> shown (Decimal (mkDecimal i k)) t -> form i k t.
Proof.
  intros i k t K H. inversion H as [| | |? ? q r x y w A B C D L V S|? ? x w A B S| |]; subst.
  - destruct C as (N & F & Q & _). exists x, y. split; [exact N|]. split; [exact F|]. split; [exact D|]. split; [|split; [reflexivity|]].
    + rewrite numeral_value_app, Q. lia.
    + destruct y; [cbn in A; lia|exact S].
  - assert (k = 0) as -> by lia. destruct B as (N & F & Q & _). exists x, []. split; [exact N|]. split; [exact F|]. split; [constructor|]. split; [rewrite app_nil_r; exact Q|]. split; [reflexivity|].
    cbn [Z.opp Z.to_nat repeat] in S. rewrite app_nil_r in S. exact S.
Qed.
Lemma body_first : forall x (y : str), x <> [] -> Forall is_digit x -> exists c r, match y with [] => x | _ => x ++ lit "." ++ y end = c :: r /\ is_digit c.
Proof. intros [|c x] y N F; [congruence|]. inversion F; subst. destruct y; eexists; eexists; split; try reflexivity; assumption. Qed.
Lemma no_dot : forall x x' c y, Forall is_digit x -> Forall is_digit x' -> x = x' ++ lit "." ++ c :: y -> False.
Proof. intros x x' c y D D' ->. apply Forall_app in D as [_ D]. inversion D as [|? ? [A B] _]. lia. Qed.
Lemma form_once : forall i k j l t, form i k t -> form j l t -> i = j /\ k = l.
Proof.
  intros i k j l t (x & y & N & D & F & V & L & S) (x' & y' & N' & D' & F' & V' & L' & S').
  destruct (body_first x y N D) as (c & r & E & C). destruct (body_first x' y' N' D') as (c' & r' & E' & C').
  assert (B : (match y with [] => x | _ => x ++ lit "." ++ y end) = (match y' with [] => x' | _ => x' ++ lit "." ++ y' end) /\ (i < 0 <-> j < 0)).
  { destruct S as [[A ->]|[A ->]], S' as [[A' S']|[A' S']].
    - split; [exact S'|lia].
    - exfalso. pose proof (eq_trans (eq_sym E) S') as X. cbn in X. injection X as X _. subst. destruct C. lia.
    - exfalso. pose proof (eq_trans S' E') as X. cbn in X. injection X as X _. subst. destruct C'. lia.
    - cbn in S'. injection S' as S'. split; [exact S'|lia]. }
  destruct B as [B G]. assert (x = x' /\ y = y') as [-> ->].
  { destruct y as [|d y], y' as [|d' y']; [auto| | |apply dot_once; assumption]; exfalso; [eapply (no_dot x x')|eapply (no_dot x' x)]; eauto. }
  split; lia.
Qed.
Lemma show_once : forall d e, 0 <= dec_scale d -> 0 <= dec_scale e -> show_decimal d = show_decimal e -> d = e.
Proof.
  intros [i k] [j l] K L E. cbn [dec_scale] in *. pose proof (shown_form i k _ K (show_decimal_shown _)) as A. pose proof (shown_form j l _ L (show_decimal_shown _)) as B.
  rewrite E in A. destruct (form_once _ _ _ _ _ A B) as [-> ->]. reflexivity.
Qed.

(** ** Trees *)
Section Inject.
  Variable cap : str -> str.
  Notation tw := (to_wolfram cap).
  Notation wolfram_name := (wolfram_name cap).
  Notation agree := (agree cap).
  Lemma mapped_name : forall s, wolfram_name (name s) (function_map cap s).
  Proof. intros s. unfold function_map. destruct (str_eqb (name s) (lit "factor")) eqn:E; [apply str_eqb_eq in E; rewrite E; constructor|]. constructor. intros X. apply str_eqb_eq in X. congruence. Qed.
  Lemma name_mapped : forall s n, wolfram_name (name s) n -> function_map cap s = n.
  Proof. intros s n H. unfold function_map. inversion H as [X Y|m N X Y]; subst; [reflexivity|]. destruct (str_eqb (name s) (lit "factor")) eqn:E; [apply str_eqb_eq in E; congruence|reflexivity]. Qed.
  Definition rule_of (kv : ast * ast) : wolfram := WFunction (WSystem (lit "Rule")) [tw (fst kv); tw (snd kv)].
  Definition pw (p : parameter) : list wolfram := map tw (arguments p) ++ map rule_of (options p).
  Definition apps (h : wolfram) (l : list (list wolfram)) : wolfram := fold_left (fun hd vec => WFunction hd vec) l h.
  Lemma apps_once : forall l m n n', apps (WSystem n) l = apps (WSystem n') m -> n = n' /\ l = m.
  Proof.
    induction l as [|v l IH] using rev_ind; intros m n n' E; destruct m as [|w m _] using rev_ind; unfold apps in *; rewrite ?fold_left_app in E; cbn [fold_left] in E; try discriminate.
    - injection E as ->. auto.
    - injection E as E ->. destruct (IH m n n' E) as [-> ->]. auto.
  Qed.
  Definition ok (a : ast) : Prop := calls_nothing_reserved cap a /\ decimals_written a.
  Lemma ok_part : forall a b, (forall x, within x b -> within x a) -> ok a -> ok b.
  Proof. intros a b H [C D]. split; [intros s ps n W|intros d W]; [apply (C s ps n)|apply D]; apply H, W. Qed.
  Lemma ok_program : forall l, ok (Program l) -> Forall ok l.
  Proof. intros l H. apply Forall_forall. intros a I. revert H. apply ok_part. intros x W. eapply within_program; eassumption. Qed.
  Lemma ok_calls : forall s ps, ok (Function s ps) -> Forall (fun p => Forall ok (arguments p) /\ Forall (fun o => ok (fst o) /\ ok (snd o)) (options p)) ps.
  Proof.
    intros s ps H. apply Forall_forall. intros p I. split; apply Forall_forall.
    - intros a J. revert H. apply ok_part. intros x W. eapply within_argument; eassumption.
    - intros [k v] J. split; revert H; apply ok_part; intros x W; [eapply within_key|eapply within_value]; eassumption.
  Qed.
  Lemma ok_name : forall s ps, ok (Function s ps) -> ~ In (function_map cap s) reserved.
  Proof. intros s ps [C _]. apply (C s ps _ (within_self _)). apply mapped_name. Qed.
  Lemma not_rule : forall a l, ok a -> tw a <> WFunction (WSystem (lit "Rule")) l.
  Proof.
    intros a l O E. destruct a as [|m|s ps|[]|n|d|s|s]; cbn [to_wolfram] in E; try discriminate. apply ok_name in O. change (apps (WSystem (function_map cap s)) (map pw ps) = apps (WSystem (lit "Rule")) [l]) in E.
    apply apps_once in E as [E _]. rewrite E in O. apply O. left. reflexivity.
  Qed.
  Lemma split_once : forall args args' opts opts', Forall ok args -> Forall ok args' -> map tw args ++ map rule_of opts = map tw args' ++ map rule_of opts' ->
    map tw args = map tw args' /\ map rule_of opts = map rule_of opts'.
  Proof.
    induction args as [|a args IH]; intros [|b args'] opts opts' O O' E; cbn [map app] in *.
    - auto.
    - exfalso. destruct opts as [|o opts]; cbn [map] in E; [discriminate|]. injection E as E _. inversion O'; subst. eapply not_rule; [|symmetry; exact E]. assumption.
    - exfalso. destruct opts' as [|o opts']; cbn [map] in E; [discriminate|]. injection E as E _. inversion O; subst. eapply not_rule; [|exact E]. assumption.
    - injection E as -> E. inversion O; inversion O'; subst. destruct (IH args' opts opts') as [-> ->]; auto.
  Qed.
  Lemma map_agree : forall l, Forall (fun a => forall b, ok a -> ok b -> tw a = tw b -> agree a b) l -> forall m, Forall ok l -> Forall ok m -> map tw l = map tw m -> Forall2 agree l m.
  Proof.
    induction 1 as [|a l H _ IH]; intros [|b m] O O' E; cbn [map] in E; try discriminate; constructor; injection E as E1 E2; inversion O; inversion O'; subst; auto.
  Qed.
  Lemma options_agree : forall l, Forall (fun o => (forall b, ok (fst o) -> ok b -> tw (fst o) = tw b -> agree (fst o) b) /\ (forall b, ok (snd o) -> ok b -> tw (snd o) = tw b -> agree (snd o) b)) l ->
    forall m, Forall (fun o => ok (fst o) /\ ok (snd o)) l -> Forall (fun o => ok (fst o) /\ ok (snd o)) m -> map rule_of l = map rule_of m -> Forall2 (fun e f => agree (fst e) (fst f) /\ agree (snd e) (snd f)) l m.
  Proof.
    induction 1 as [|a l [H1 H2] _ IH]; intros [|b m] O O' E; cbn [map] in E; try discriminate; constructor; injection E as E1 E2 E3; inversion O as [|? ? [? ?]]; inversion O' as [|? ? [? ?]]; subst; auto.
  Qed.
  Definition leaf (w : wolfram) : Prop := match w with WFunction _ _ | WSystem _ => False | _ => True end.
  Lemma apps_leaf : forall n l, ~ leaf (apps (WSystem n) l).
  Proof. intros n l. destruct l as [|v l _] using rev_ind; unfold apps; rewrite ?fold_left_app; cbn; auto. Qed.
  Lemma call_only : forall s ps b, ok (Function s ps) -> tw (Function s ps) = tw b -> exists t qs, b = Function t qs.
  Proof.
    intros s ps b O E. apply ok_name in O. change (apps (WSystem (function_map cap s)) (map pw ps) = tw b) in E. destruct b as [|m|t qs|b|n|d|t|t]; [| |eauto| | | | |]; exfalso.
    - apply (apps_leaf (function_map cap s) (map pw ps)). rewrite E. exact I.
    - change (apps (WSystem (function_map cap s)) (map pw ps) = apps (WSystem (lit "CompoundExpression")) [map tw m]) in E. apply apps_once in E as [E _]. rewrite E in O. apply O. cbn. auto.
    - assert (X : tw (Boolean b) = apps (WSystem (if b then lit "True" else lit "False")) []) by (destruct b; reflexivity). rewrite X in E. apply apps_once in E as [E _]. rewrite E in O. apply O. destruct b; cbn; auto.
    - apply (apps_leaf (function_map cap s) (map pw ps)). rewrite E. exact I.
    - apply (apps_leaf (function_map cap s) (map pw ps)). rewrite E. exact I.
    - apply (apps_leaf (function_map cap s) (map pw ps)). rewrite E. exact I.
    - apply (apps_leaf (function_map cap s) (map pw ps)). rewrite E. exact I.
  Qed.
  Theorem agreeing : forall a b, ok a -> ok b -> tw a = tw b -> agree a b.
  Proof.
    induction a as [|l H|s ps H|b|n|d|s|s] using ast_ind'; intros y O O' E.
    3:{ destruct (call_only _ _ _ O E) as (t & qs & ->).
        change (apps (WSystem (function_map cap s)) (map pw ps) = apps (WSystem (function_map cap t)) (map pw qs)) in E. apply apps_once in E as [E1 E2].
        apply (agree_function cap s t (function_map cap s)); [apply mapped_name|rewrite E1; apply mapped_name|].
        apply ok_calls in O. apply ok_calls in O'. clear E1. revert qs O O' E2. induction H as [|p ps [Ha Ho] H IH]; intros [|q qs] O O' E2; cbn [map] in E2; try discriminate; constructor.
        - injection E2 as E2 _. inversion O as [|? ? [O1 O2] _]; inversion O' as [|? ? [O3 O4] _]; subst. apply split_once in E2 as [E2 E3]; [|assumption|assumption]. split; [apply map_agree|apply options_agree]; assumption.
        - injection E2 as _ E2. inversion O; inversion O'; subst. apply IH; assumption. }
    all: destruct y as [|m|t qs|b'|n'|d'|t|t]; try (destruct (call_only _ _ _ O' (eq_sym E)) as (? & ? & X); discriminate X); try (destruct b'); try (destruct b); try discriminate E; try (cbn [to_wolfram] in E; injection E as E; subst; constructor; auto; fail).
    - constructor.
    - cbn [to_wolfram] in E. injection E as E. constructor. apply map_agree; [exact H|apply ok_program, O|apply ok_program, O'|exact E].
    - constructor.
    - constructor.
    - cbn [to_wolfram] in E. injection E as E. rewrite (show_once d d'); [constructor|apply (proj2 O), within_self|apply (proj2 O'), within_self|exact E].
  Qed.
  Lemma map_tw : forall l, Forall (fun a => forall b, agree a b -> tw a = tw b) l -> forall m, Forall2 agree l m -> map tw l = map tw m.
  Proof. induction 1 as [|a l H _ IH]; intros m F; inversion F; subst; [reflexivity|]. cbn [map]. f_equal; auto. Qed.
  Theorem agreed : forall a b, agree a b -> tw a = tw b.
  Proof.
    induction a as [|l H|s ps H|b|n|d|s|s] using ast_ind'; intros y A; inversion A as [|? m F|? t nn ? qs N1 N2 F| | | |? t N|]; subst; try reflexivity.
    - cbn [to_wolfram]. f_equal. apply map_tw; assumption.
    - change (apps (WSystem (function_map cap s)) (map pw ps) = apps (WSystem (function_map cap t)) (map pw qs)). rewrite (name_mapped s nn N1), (name_mapped t nn N2). f_equal. clear A N1 N2.
      revert qs F. induction H as [|p ps [Ha Ho] H IH]; intros qs F; inversion F as [|? q ? qs' [F1 F2] F3]; subst; [reflexivity|]. cbn [map]. f_equal; [|apply IH, F3]. unfold pw. f_equal; [apply map_tw; assumption|].
      clear - Ho F2. revert F2. generalize (options q). induction Ho as [|o l [H1 H2] _ IH]; intros m F; inversion F as [|? o' ? m' [E1 E2] F']; subst; [reflexivity|]. cbn [map]. f_equal; [|apply IH, F']. unfold rule_of. rewrite (H1 _ E1), (H2 _ E2). reflexivity.
    - cbn [to_wolfram]. congruence.
  Qed.
  Theorem export_same : forall a b, calls_nothing_reserved cap a -> decimals_written a -> calls_nothing_reserved cap b -> decimals_written b -> (tw a = tw b <-> agree a b).
  Proof. intros a b A B C D. split; [apply agreeing; split; assumption|apply agreed]. Qed.
End Inject.

(** ** Trees of texts *)
Lemma digits_positive : forall k m, has_digits k m -> 0 < k.
Proof. intros k m [[-> _]|[H _]]; lia. Qed.
Section Texts.
  Variable U : unicode.
  Definition grows (a : ast) : Prop := produced U a \/ (exists n, a = Integer n) \/ (exists s, a = Sym s).
  Lemma grown_parts : forall s ps p, grows (Function s ps) -> In p ps -> Forall grows (arguments p) /\ Forall (fun o => grows (fst o) /\ grows (snd o)) (options p).
  Proof.
    intros s ps p [H|[[n H]|[t H]]] I; try discriminate. assert (G : forall l, Forall (produced U) l -> Forall grows l) by (intros l; apply Forall_impl; intros; left; assumption).
    inversion H as [| | | | | |? ? W N F|? n args q O L F|l vs q F L S|o n l q L F]; subst.
    - rewrite Forall_forall in F. destruct (F p I) as (F1 & _ & F2). split; [apply G, F1|]. eapply Forall_impl; [|exact F2]. intros e [(k & E & _) P]. split; [right; right; eexists; exact E|left; exact P].
    - destruct I as [<-|[]]. split; [apply G, F|constructor].
    - destruct I as [<-|[]]. split; [|constructor]. apply Forall_app. split; [apply G, F|]. eapply Forall_impl; [|exact S]. intros a [n Hn|t Ht]; right; [left|right]; eexists; reflexivity.
    - destruct I as [<-|[]]. split; [|constructor]. apply Forall_app. split; [apply G, F|]. constructor; [right; left; eexists; reflexivity|constructor].
  Qed.
  Lemma grown_decimals : forall x a, within x a -> forall d, x = Decimal d -> grows a -> 0 <= dec_scale d.
  Proof.
    induction 1 as [|l a I W IH|s ps p a I J W IH|s ps p k v I J W IH|s ps p k v I J W IH]; intros d E G.
    - subst. destruct G as [G|[[n G]|[t G]]]; try discriminate. inversion G as [|? ? k ? H | | | | | | | |]; subst. cbn [dec_scale]. apply digits_positive in H. lia.
    - exfalso. destruct G as [G|[[n G]|[t G]]]; try discriminate. inversion G.
    - apply IH; [exact E|]. destruct (grown_parts _ _ _ G I) as [F _]. rewrite Forall_forall in F. apply F, J.
    - apply IH; [exact E|]. destruct (grown_parts _ _ _ G I) as [_ F]. rewrite Forall_forall in F. apply (F _ J).
    - apply IH; [exact E|]. destruct (grown_parts _ _ _ G I) as [_ F]. rewrite Forall_forall in F. apply (F _ J).
  Qed.
  Theorem texts_decimals : sane U -> forall f text a, parse U f text = Ret (Ok a) -> decimals_written a.
  Proof.
    intros S f text a H d W. destruct (proj1 (image U S f a)) as [->|P]; [exists text, a; split; [exact H|reflexivity]|inversion W|].
    eapply grown_decimals; [exact W|reflexivity|left; exact P].
  Qed.
  Theorem texts_same : sane U -> forall cap f g s t a b, parse U f s = Ret (Ok a) -> parse U g t = Ret (Ok b) ->
    calls_nothing_reserved cap a -> calls_nothing_reserved cap b -> (to_wolfram cap a = to_wolfram cap b <-> agree cap a b).
  Proof. intros S cap f g s t a b A B C D. apply export_same; try assumption; eapply texts_decimals; eassumption. Qed.
End Texts.
(** a reader of [within] for small trees *)
Fixpoint functions (a : ast) : list symbol :=
  match a with
  | Program l => flat_map functions l
  | Function s ps => s :: flat_map (fun p => flat_map functions (arguments p) ++ flat_map (fun o => functions (fst o) ++ functions (snd o)) (options p)) ps
  | _ => []
  end.
Lemma within_functions : forall x a, within x a -> forall s ps, x = Function s ps -> In s (functions a).
Proof.
  induction 1 as [|l a I W IH|t ps p a I J W IH|t ps p k v I J W IH|t ps p k v I J W IH]; intros s qs E; cbn [functions].
  - subst. left. reflexivity.
  - apply in_flat_map. exists a. split; [exact I|eapply IH; exact E].
  - right. apply in_flat_map. exists p. split; [exact I|]. apply in_app_iff. left. apply in_flat_map. exists a. split; [exact J|eapply IH; exact E].
  - right. apply in_flat_map. exists p. split; [exact I|]. apply in_app_iff. right. apply in_flat_map. exists (k, v). split; [exact J|]. apply in_app_iff. left. eapply IH; exact E.
  - right. apply in_flat_map. exists p. split; [exact I|]. apply in_app_iff. right. apply in_flat_map. exists (k, v). split; [exact J|]. apply in_app_iff. right. eapply IH; exact E.
Qed.
Lemma nothing_reserved : forall cap a, Forall (fun s => ~ In (function_map cap s) reserved) (functions a) -> calls_nothing_reserved cap a.
Proof.
  intros cap a F s ps n W N. rewrite Forall_forall in F. rewrite <- (name_mapped cap s n N). apply F. eapply within_functions; [exact W|reflexivity].
Qed.
(** what the export mixes up *)
Definition tree_of (text : str) : ast := match parse ascii_only [] text with Ret (Ok a) => a | _ => EmptyStatement end.
Lemma tree_read : forall text, is_ret (parse ascii_only [] text) = true -> match parse ascii_only [] text with Ret (Ok _) => true | _ => false end = true -> parse ascii_only [] text = Ret (Ok (tree_of text)).
Proof. intros text _ H. unfold tree_of. destruct (parse ascii_only [] text) as [[a|e]| |]; try discriminate. reflexivity. Qed.
Lemma mixed_rule : forall cap, cap (lit "Rule") = lit "Rule" -> exists a b, parse ascii_only [] (lit "f(k: 1)") = Ret (Ok a) /\ parse ascii_only [] (lit "f(Rule(k, 1))") = Ret (Ok b) /\
  to_wolfram cap a = to_wolfram cap b /\ ~ agree cap a b.
Proof.
  intros cap R. exists (tree_of (lit "f(k: 1)")), (tree_of (lit "f(Rule(k, 1))")). split; [apply tree_read; vm_compute; reflexivity|]. split; [apply tree_read; vm_compute; reflexivity|].
  vm_compute tree_of. split.
  - vm_compute in R |- *. rewrite R. reflexivity.
  - intros A. inversion A as [| |? ? ? ? ? _ _ F| | | | |]; subst. inversion F as [|? ? ? ? [F1 _] _]; subst. inversion F1.
Qed.
Lemma mixed_case : forall cap, cap (lit "f") = cap (lit "F") -> exists a b, parse ascii_only [] (lit "f(1)") = Ret (Ok a) /\ parse ascii_only [] (lit "F(1)") = Ret (Ok b) /\
  to_wolfram cap a = to_wolfram cap b /\ ~ same_shape a b.
Proof.
  intros cap R. exists (tree_of (lit "f(1)")), (tree_of (lit "F(1)")). split; [apply tree_read; vm_compute; reflexivity|]. split; [apply tree_read; vm_compute; reflexivity|].
  vm_compute tree_of. split.
  - vm_compute in R |- *. rewrite R. reflexivity.
  - intros A. inversion A; subst. discriminate.
Qed.
Lemma mixed_factor : forall cap, cap (lit "factorInteger") = lit "FactorInteger" -> exists a b, parse ascii_only [] (lit "factor(6)") = Ret (Ok a) /\ parse ascii_only [] (lit "factorInteger(6)") = Ret (Ok b) /\
  to_wolfram cap a = to_wolfram cap b /\ ~ same_shape a b.
Proof.
  intros cap R. exists (tree_of (lit "factor(6)")), (tree_of (lit "factorInteger(6)")). split; [apply tree_read; vm_compute; reflexivity|]. split; [apply tree_read; vm_compute; reflexivity|].
  vm_compute tree_of. split.
  - vm_compute in R |- *. rewrite R. reflexivity.
  - intros A. inversion A; subst. discriminate.
Qed.
Lemma export_sample : let cap s := match s with c :: r => (if (97 <=? c)%N && (c <=? 122)%N then (c - 32)%N else c) :: r | [] => [] end in
  exists a b, parse ascii_only [] (lit "f(g(1.5, x), k: true)") = Ret (Ok a) /\ parse ascii_only [] (lit "f( G(1.5, x), k: true)") = Ret (Ok b) /\
    calls_nothing_reserved cap a /\ calls_nothing_reserved cap b /\ agree cap a b /\ ~ same_shape a b /\ cap (lit "Rule") = lit "Rule" /\ cap (lit "factorInteger") = lit "FactorInteger".
Proof.
  intros cap. exists (tree_of (lit "f(g(1.5, x), k: true)")), (tree_of (lit "f( G(1.5, x), k: true)")).
  assert (A : parse ascii_only [] (lit "f(g(1.5, x), k: true)") = Ret (Ok (tree_of (lit "f(g(1.5, x), k: true)")))) by (apply tree_read; vm_compute; reflexivity).
  assert (B : parse ascii_only [] (lit "f( G(1.5, x), k: true)") = Ret (Ok (tree_of (lit "f( G(1.5, x), k: true)")))) by (apply tree_read; vm_compute; reflexivity).
  assert (R : forall text, forallb (fun s => negb (existsb (str_eqb (function_map cap s)) reserved)) (functions (tree_of text)) = true -> calls_nothing_reserved cap (tree_of text)).
  { intros text H. apply nothing_reserved. apply Forall_forall. intros s I N. rewrite forallb_forall in H. specialize (H s I). apply negb_true_iff in H.
    assert (X : existsb (str_eqb (function_map cap s)) reserved = true) by (apply existsb_exists; eexists; split; [exact N|apply str_eqb_eq; reflexivity]). congruence. }
  assert (RA : calls_nothing_reserved cap (tree_of (lit "f(g(1.5, x), k: true)"))) by (apply R; vm_compute; reflexivity).
  assert (RB : calls_nothing_reserved cap (tree_of (lit "f( G(1.5, x), k: true)"))) by (apply R; vm_compute; reflexivity).
  split; [exact A|]. split; [exact B|]. split; [exact RA|]. split; [exact RB|]. split; [|split; [|split; reflexivity]].
  2:{ intros X. vm_compute tree_of in X. inversion X as [| |? ? ? ? _ F| | | | |]; subst. inversion F as [|? ? ? ? [F1 _] _]; subst. inversion F1 as [|? ? ? ? Y _]; subst. inversion Y; subst. discriminate. }
  apply (texts_same ascii_only ascii_only_sane cap _ _ _ _ _ _ A B RA RB). vm_compute. reflexivity.
Qed.
