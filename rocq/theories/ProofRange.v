(** The trees of [SpecImage] are exactly those of the texts. *)
From Verif Require Import Base Ast SmError Peg Build SpecAst SpecSyntax SpecSource SpecOrigin SpecImage.
From Verif Require Import ProofSample.
From Verif Require ProofImage ProofProduced.
Local Open Scope nat_scope.

(** ** Positions do not matter *)
Lemma forget_map : forall l m, map forget_positions l = map forget_positions m -> Forall2 (fun a b => forget_positions a = forget_positions b) l m.
Proof. induction l as [|a l IH]; intros [|b m] E; try discriminate; [constructor|]. cbn [map] in E. injection E as E1 E2. constructor; auto. Qed.
Lemma forget_pairs : forall l m, map (fun e => (forget_positions (fst e), forget_positions (snd e))) l = map (fun e => (forget_positions (fst e), forget_positions (snd e))) m ->
  Forall2 (fun a b => forget_positions (fst a) = forget_positions (fst b) /\ forget_positions (snd a) = forget_positions (snd b)) l m.
Proof. induction l as [|a l IH]; intros [|b m] E; try discriminate; [constructor|]. cbn [map] in E. injection E as E1 E2 E3. constructor; auto. Qed.
Lemma forget_calls : forall s ps b, forget_positions (Function s ps) = forget_positions b -> exists qs, b = Function s qs /\
  Forall2 (fun p q => Forall2 (fun a b => forget_positions a = forget_positions b) (arguments p) (arguments q) /\
    Forall2 (fun a b => forget_positions (fst a) = forget_positions (fst b) /\ forget_positions (snd a) = forget_positions (snd b)) (options p) (options q)) ps qs.
Proof.
  intros s ps b E. destruct b as [| |s' qs| | | | |]; try discriminate. cbn [forget_positions] in E. injection E as <- E. exists qs. split; [reflexivity|].
  revert qs E. induction ps as [|p ps IH]; intros [|q qs] E; try discriminate; [constructor|]. cbn [map] in E. injection E as E1 E2 E3. constructor; [|auto]. split; [apply forget_map, E1|apply forget_pairs, E2].
Qed.
Lemma forget_symbol : forall s b, forget_positions (Sym s) = forget_positions b -> b = Sym s.
Proof. intros s b E. destruct b; try discriminate. cbn [forget_positions] in E. congruence. Qed.
Lemma pairs_length : forall {A} (R : A -> A -> Prop) l m, Forall2 R l m -> length l = length m.
Proof. intros A R l m H. induction H; cbn; congruence. Qed.
Lemma simple_forget : forall U a b, simple_factor U a -> forget_positions a = forget_positions b -> a = b.
Proof. intros U a b H E. destruct H; destruct b; try discriminate E; cbn [forget_positions] in E; congruence. Qed.
Lemma produced_places : forall U n a b, (nodes a <= n)%nat -> produced U a -> forget_positions a = forget_positions b -> produced U b.
Proof.
  intros U. induction n as [|n IH]; intros a b Hn P E; [destruct a; cbn in Hn; lia|].
  assert (ALL : forall s ps p l m, a = Function s ps -> In p ps -> incl l (arguments p) -> Forall (produced U) l -> Forall2 (fun a b => forget_positions a = forget_positions b) l m -> Forall (produced U) m).
  { intros s ps p l m -> Hp I F K. induction K as [|x y l m Hxy _ IHK]; [constructor|]. inversion F as [|? ? F1 F2]; subst. constructor; [|apply IHK; [intros z Hz; apply I; right; exact Hz|exact F2]].
    apply (IH x); [|exact F1|exact Hxy]. pose proof (ProofImage.in_nodes s ps p x Hp (I x (or_introl eq_refl))). lia. }
  destruct P as [z H|z m k H1 H2|c| |s H1 H2|s H|s ps H1 H2 H3|s k args p H1 H2 H3|l vs p H1 H2 H3|o z l p H1 H2]; try (destruct b; try discriminate E; injection E as <-; constructor; assumption).
  - apply forget_calls in E as (qs & -> & K). apply produced_call; [exact H1|destruct K; congruence|].
    assert (A : forall ps' qs, incl ps' ps -> Forall2 (fun p q => Forall2 (fun a b => forget_positions a = forget_positions b) (arguments p) (arguments q) /\
      Forall2 (fun a b => forget_positions (fst a) = forget_positions (fst b) /\ forget_positions (snd a) = forget_positions (snd b)) (options p) (options q)) ps' qs ->
      Forall (fun p => Forall (produced U) (arguments p) /\ strictly_increasing earlier_key (map fst (options p)) /\
        Forall (fun o => (exists k, fst o = Sym (mkSymbol [] k Normal 0) /\ word U k = true) /\ produced U (snd o)) (options p)) qs).
    { clear K qs. intros ps' qs I K. induction K as [|p q ps' qs [K1 K2] _ IHK]; [constructor|]. constructor; [|apply IHK; intros x Hx; apply I; right; exact Hx].
      assert (Hp : In p ps) by (apply I; left; reflexivity). rewrite Forall_forall in H3. destruct (H3 p Hp) as (A & S & O). split; [|split].
      - apply (ALL s ps p _ _ eq_refl Hp (incl_refl _) A K1).
      - assert (M : map fst (options p) = map fst (options q)).
        { clear S. induction K2 as [|x y l m [E1 _] _ IH2]; [reflexivity|]. inversion O as [|? ? ((k & Ek & _) & _) O']; subst. cbn [map]. rewrite (IH2 O'). rewrite Ek in *. f_equal. symmetry. apply forget_symbol, E1. }
        rewrite <- M. exact S.
      - clear S.
        assert (G : forall l m, incl l (options p) -> Forall2 (fun a b => forget_positions (fst a) = forget_positions (fst b) /\ forget_positions (snd a) = forget_positions (snd b)) l m ->
          Forall (fun o => (exists k, fst o = Sym (mkSymbol [] k Normal 0) /\ word U k = true) /\ produced U (snd o)) m).
        { intros l m J KK. induction KK as [|x y l m [E1 E2] _ IH2]; [constructor|]. constructor; [|apply IH2; intros z Hz; apply J; right; exact Hz].
          rewrite Forall_forall in O. destruct (O x (J x (or_introl eq_refl))) as ((k & Ek & Wk) & Px). split.
          - exists k. split; [|exact Wk]. rewrite Ek in E1. apply forget_symbol, E1.
          - apply (IH (snd x)); [|exact Px|exact E2]. pose proof (ProofImage.in_nodes_option s ps p x Hp (J x (or_introl eq_refl))). lia. }
        apply (G _ _ (incl_refl _) K2). }
    apply (A ps qs (incl_refl _) K).
  - apply forget_calls in E as (qs & -> & K). inversion K as [|? q ? qs' [K1 K2] K']; subst. inversion K'; subst. cbn [arguments options] in *. inversion K2 as [E|]; subst. destruct q as [args' opts' p']. cbn [arguments options] in *. subst opts'.
    apply (produced_operator U s k); [exact H1|rewrite <- (pairs_length _ _ _ K1); exact H2|].
    apply (ALL s _ (mkParam args [] p) args args' eq_refl (or_introl eq_refl) (incl_refl _) H3 K1).
  - apply forget_calls in E as (qs & -> & K). inversion K as [|? q ? qs' [K1 K2] K']; subst. inversion K'; subst. cbn [arguments options] in *. inversion K2 as [E|]; subst. destruct q as [args' opts' p']. cbn [arguments options] in *. subst opts'.
    apply Forall2_app_inv_l in K1 as (l' & vs' & K1 & K3 & ->).
    assert (V : vs' = vs).
    { clear - H3 K3. induction K3 as [|x y l m Hxy _ IHK]; [reflexivity|]. inversion H3 as [|? ? F1 F2]; subst. f_equal; [|apply IHK, F2]. symmetry. apply (simple_forget U x y F1 Hxy). }
    subst vs'. apply produced_product; [|exact H2|exact H3].
    apply (ALL times_symbol _ (mkParam (l ++ vs) [] p) l l' eq_refl (or_introl eq_refl) (incl_appl _ (incl_refl _)) H1 K1).
  - apply forget_calls in E as (qs & -> & K). inversion K as [|? q ? qs' [K1 K2] K']; subst. inversion K'; subst. cbn [arguments options] in *. inversion K2 as [E|]; subst. destruct q as [args' opts' p']. cbn [arguments options] in *. subst opts'.
    apply Forall2_app_inv_l in K1 as (l' & vs' & K1 & K3 & ->). inversion K3 as [|? y ? m' E3 K4]; subst. inversion K4; subst. destruct y; try discriminate E3. injection E3 as <-.
    apply produced_back; [exact H1|].
    apply (ALL (input_symbol o) _ (mkParam (l ++ [Integer z]) [] p) l l' eq_refl (or_introl eq_refl) (incl_appl _ (incl_refl _)) H2 K1).
Qed.

Lemma image : forall U, sane U -> forall f a,
  (exists text a', parse U f text = Ret (Ok a') /\ forget_positions a' = forget_positions a) <-> a = EmptyStatement \/ produced U a.
Proof.
  intros U HU f a. split.
  - intros (text & a' & H & E). destruct (ProofProduced.parse_produced U f text a' HU H) as [->|P].
    + left. destruct a; try discriminate E. reflexivity.
    + right. apply (produced_places U (nodes a') a' a (le_n _) P E).
  - intros [->|P]; [|apply (ProofImage.produced_parse U HU a f P)]. exists [], EmptyStatement. split; [vm_compute; reflexivity|reflexivity].
Qed.


(** ** Trees that no text has *)
Lemma produced_no_program : forall U l, ~ produced U (Program l).
Proof. intros U l H. inversion H. Qed.
Lemma produced_no_negative : forall U n, (n < 0)%Z -> ~ produced U (Integer n).
Proof. intros U n H P. inversion P; subst. lia. Qed.
Lemma produced_no_quote : forall U s, ~ produced U (Str (34%N :: s)).
Proof. intros U s P. inversion P as [| | | | |x W| | | |]; subst. destruct W as [W|(_ & W & _)]; [vm_compute in W; discriminate|apply W; reflexivity]. Qed.
Lemma unwritten : forall U, sane U -> forall f text a, ~ (a = EmptyStatement \/ produced U a) -> parse U f text <> Ret (Ok a).
Proof. intros U HU f text a N H. apply N. apply (image U HU f a). exists text, a. split; [exact H|reflexivity]. Qed.
Lemma unwritten_trees : forall U, sane U -> forall f text,
  (forall l, parse U f text <> Ret (Ok (Program l))) /\
  (forall n, (n < 0)%Z -> parse U f text <> Ret (Ok (Integer n))) /\
  (forall s, parse U f text <> Ret (Ok (Str (34%N :: s)))) /\
  (forall s, parse U f text <> Ret (Ok (Function s []))).
Proof.
  intros U HU f text. repeat split; intros; apply (unwritten U HU); intros [D|P]; try discriminate D.
  - exact (produced_no_program _ _ P).
  - exact (produced_no_negative _ _ H P).
  - exact (produced_no_quote _ _ P).
  - inversion P; subst; congruence.
Qed.
Lemma image_example :
  let x := Sym (mkSymbol [] (lit "x") Normal 0) in
  let plus := mkSymbol [lit "std"; lit "infix"] (lit "add") (Infix (lit "+") 80) 0 in
  let sum l := Function plus [mkParam l [] default_position] in
  produced ascii_only (sum [x; Integer 2; Str (lit "s")]) /\
  (forall f, exists a, parse ascii_only f (lit "x.(2+""s"")") = Ret (Ok a) /\ forget_positions a = sum [x; Integer 2; Str (lit "s")]) /\
  ~ produced ascii_only (sum [x]) /\ ~ produced ascii_only (sum [x; Integer (-1)]).
Proof.
  cbn zeta. assert (W : writable ascii_only (mkSymbol [] (lit "x") Normal 0)) by (split; [repeat constructor|split; reflexivity]).
  assert (D : forall o, input_symbol o <> mkSymbol [lit "std"; lit "infix"] (lit "add") (Infix (lit "+") 80) 0) by (intros o E; discriminate E).
  assert (N : forall ps, writable ascii_only (mkSymbol [lit "std"; lit "infix"] (lit "add") (Infix (lit "+") 80) 0) -> ps = @nil ast) by (intros ps (_ & E & _); discriminate E).
  split; [|split; [|split]].
  - apply (produced_operator ascii_only _ 2).
    + apply (operator_infix (lit "+") 1 (lit "add") 80); [left; reflexivity|discriminate].
    + cbn. lia.
    + constructor; [apply produced_name; [exact W|reflexivity]|]. constructor; [apply produced_integer; lia|]. constructor; [apply produced_string; left; reflexivity|constructor].
  - intros f. eexists. split; [vm_compute; reflexivity|reflexivity].
  - intros P. inversion P as [| | | | | |s ps H1 H2 H3 E|s k args p H1 H2 H3 E|l vs p H1 H2 H3 E|o z l p H1 H2 E]; subst.
    + destruct H1 as (_ & E & _). discriminate E.
    + inversion H1; subst; cbn in H2; lia.
  - intros P. inversion P as [| | | | | |s ps H1 H2 H3 E|s k args p H1 H2 H3 E|l vs p H1 H2 H3 E|o z l p H1 H2 E]; subst.
    + destruct H1 as (_ & E & _). discriminate E.
    + inversion H3 as [|? ? _ F]; subst. inversion F as [|? ? F1 _]; subst. inversion F1; subst. lia.
Qed.
