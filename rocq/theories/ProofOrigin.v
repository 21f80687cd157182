(** Where the parts of a tree come from, and how large a tree is. *)
From Verif Require Import Base Ast SmError Peg Grammar Climber Build SpecAst SpecClimb SpecSyntax SpecPlace SpecParse SpecSafe SpecPest Source SpecValue SpecOrigin.
From Verif Require Import SpecOrder ProofOrder ProofPeg ProofShape ProofAst ProofSym ProofBuild ProofPlace ProofAtom ProofPest ProofFollow ProofInside ProofValue ProofMeaning.
From Verif Require Import ProofSource ProofSyntax ProofSample.
From Verif Require SpecSource.
Local Open Scope nat_scope.

Notation has := SpecSafe.contains.
Lemma has_refl : forall w, has w w.
Proof. intro w. exists [], []. rewrite app_nil_r. reflexivity. Qed.
Lemma has_trans : forall a b c, has a b -> has b c -> has a c.
Proof. intros a b c (p & q & ->) (p' & q' & ->). exists (p' ++ p), (q ++ q'). rewrite <- !app_assoc. reflexivity. Qed.
Lemma has_mid : forall p w q, has w (p ++ w ++ q).
Proof. intros p w q. exists p, q. reflexivity. Qed.
Lemma has_length : forall a b, has a b -> length a <= length b.
Proof. intros a b (p & q & ->). rewrite !app_length. lia. Qed.

(** ** The lengths of pairs *)
Definition width (t : tree rule) : nat := length (t_text t).
Definition total (l : list (tree rule)) : nat := list_sum (map width l).
Lemma total_app : forall l m, total (l ++ m) = total l + total m.
Proof. intros l m. unfold total. rewrite map_app. apply list_sum_app. Qed.
Lemma total_cons : forall t l, total (t :: l) = width t + total l. Proof. reflexivity. Qed.

(** characters read outside the pairs *)
Fixpoint spare (e : pexp rule) : nat :=
  match e with
  | EStr l => length l
  | EThen a b => spare a + spare b
  | EElse a b => Nat.min (spare a) (spare b)
  | ESeq a | ERestore a | EAtomic _ a => spare a
  | _ => 0
  end.
Section Spare.
  Variable U : unicode.
  Notation run := (run U grammar skip_body).
  Definition covered (n : nat) (s : pstate) (r : pres rule) : Prop :=
    match r with
    | POk s1 t => n + total t + length (rest s1) <= length (rest s)
    | PErr s1 t => total t + length (rest s1) <= length (rest s)
    | _ => True
    end.
  Lemma covered_prepend : forall n m s s1 t r, n + total t + length (rest s1) <= length (rest s) -> covered m s1 r -> covered (n + m) s (prepend t r).
  Proof. intros n m s s1 t [s2 u|s2 u| |] H1 H2; cbn in *; rewrite ?total_app; try exact I; lia. Qed.
  Lemma covered_take : forall s o n, (forall k, o = Some k -> n + length k <= length (rest s)) -> covered n s (take s o).
  Proof. intros s [k|] n H; cbn; [|lia]. specialize (H k eq_refl). change (total []) with 0. lia. Qed.
  Lemma covered_char : forall s p, covered 0 s (take_char p s).
  Proof. intros s p. unfold take_char. destruct (rest s) as [|c k] eqn:E; [cbn; rewrite E; cbn; lia|]. destruct (p c); cbn; rewrite ?E; cbn; lia. Qed.
  Lemma spare_sound : forall f e k q s, covered (spare e) s (run f e k q s).
  Proof.
    induction f as [|f IH]; intros e k q s; [exact I|]. cbn [Peg.run]. destruct e; cbn [spare]; try apply covered_char.
    - apply covered_take. intros k0 H. apply strip_prefix_app in H. rewrite H, app_length. lia.
    - apply covered_take. intros k0 H. apply strip_insensitive_app in H. destruct H as (p' & -> & _). rewrite app_length. lia.
    - destruct (rest s) eqn:E; cbn; rewrite ?E; cbn; lia.
    - destruct (pos s); cbn; lia.
    - pose proof (IH e1 k q s) as H1. destruct (run f e1 k q s) as [s1 t1|s1 t1| |]; try exact H1. eapply covered_prepend; [exact H1|apply IH].
    - pose proof (IH e1 k q s) as H1. destruct (run f e1 k q s) as [s1 t1|s1 t1| |]; try exact H1; [cbn in *; lia|].
      pose proof (IH e2 k q s1) as H2. destruct (run f e2 k q s1) as [s2 t2|s2 t2| |]; cbn in *; rewrite ?total_app; try exact I; lia.
    - pose proof (IH e k q s) as H1. destruct (run f e k q s) as [s1 t1|s1 t1| |]; try exact H1. cbn. lia.
    - pose proof (IH e k q s) as H1. destruct (run f e k q s) as [s1 t1|s1 t1| |]; cbn in *; try exact I; lia.
    - pose proof (IH e k q s) as H1. destruct (run f e k q s) as [s1 t1|s1 t1| |]; cbn in *; try exact I; [|lia].
      change 0 with (0 + 0). eapply covered_prepend; [|apply (IH (ERep e))]. cbn. lia.
    - pose proof (IH e k q s) as H1. destruct (run f e k q s) as [s1 t1|s1 t1| |]; cbn in *; try exact I; lia.
    - destruct (run f e k true s) as [s1 t1|s1 t1| |]; cbn in *; try exact I; lia.
    - pose proof (IH e k q s) as H1. destruct (run f e k q s) as [s1 t1|s1 t1| |] eqn:E; cbn in *; try exact I; destruct (emits k q); try (cbn; lia).
      destruct (ok_ends U grammar skip_body _ _ _ _ _ _ _ E) as [w Ew]. rewrite total_cons. unfold width. cbn [t_text]. rewrite Ew, consumed_app, app_length. cbn. lia.
    - apply IH.
    - pose proof (IH e k q s) as H1. destruct (run f e k q s) as [s1 t1|s1 t1| |]; cbn in *; try exact I; lia.
    - destruct (stk s) as [|x st]; [exact I|]. apply covered_take. intros k0 H. apply strip_prefix_app in H. rewrite H, app_length. lia.
    - destruct (stk s) as [|x st]; [exact I|]. cbn [rest]. destruct (strip_prefix x (rest s)) as [k0|] eqn:H; cbn; [|lia]. apply strip_prefix_app in H. rewrite H, app_length. lia.
    - pose proof (IH (grammar r) k q s) as H1. destruct (run f (grammar r) k q s) as [s1 t1|s1 t1| |]; cbn in *; try exact I; lia.
    - destruct k; try (cbn; lia). pose proof (IH skip_body NonAtomic q s) as H1. destruct (run f skip_body NonAtomic q s) as [s1 t1|s1 t1| |]; cbn in *; try exact I; lia.
  Qed.

  (** ** Slices: a comma for every index but the first *)
  Local Open Scope Z_scope.
  Definition bonus (r : rule) : Z := match r with R_index => 1 | R_Comma => -1 | _ => 0 end.
  Definition cost (t : tree rule) : Z := Z.of_nat (width t) + bonus (t_rule t).
  Fixpoint costs (l : list (tree rule)) : Z := match l with [] => 0 | t :: l' => cost t + costs l' end.
  Lemma costs_app : forall l m, costs (l ++ m) = costs l + costs m.
  Proof. induction l as [|t l IH]; intro m; cbn [app costs]; [reflexivity|]. rewrite IH. lia. Qed.
  (** the least that is read beyond the costs, in case of success and of failure *)
  Fixpoint credit (d : nat) : bool -> pexp rule -> option (Z * Z) :=
    fix go (h : bool) (e : pexp rule) : option (Z * Z) :=
      match e with
      | EStr l => Some (Z.of_nat (length l), 0)
      | EInsens _ | ERange _ _ | EClass _ | EAny | EEoi | ESoi | ENot _ => Some (0, 0)
      | EThen a b => match go h a, go h b with Some (x, x'), Some (y, y') => Some (x + y, Z.min x' (x + y')) | _, _ => None end
      | EElse a b => match go h a, go h b with Some (x, x'), Some (y, y') => Some (Z.min x (x' + y), x' + y') | _, _ => None end
      | ESeq a => match go h a with Some (x, x') => Some (x, 0) | _ => None end
      | EOpt a => match go h a with Some (x, x') => Some (Z.min x x', 0) | _ => None end
      | ERep a => match go h a with Some (x, x') => if 0 <=? x then Some (x', 0) else None | _ => None end
      | ERestore a | EPush a => go h a
      | EAtomic k a => go (match k with Atomic => false | _ => true end) a
      | ERule r a => if h then Some (- bonus r, 0) else match go h a with Some (x, x') => Some (Z.min x (- bonus r), Z.min x' 0) | None => None end
      | EPeek | EPop => None
      | ECall r => match d with O => None | S d' => credit d' h (grammar r) end
      | ESkip => match d with O => None | S d' => match credit d' true skip_body with Some (x, x') => Some (Z.min x 0, x') | None => None end end
      end.
  Definition credited (p : option (Z * Z)) (s : pstate) (r : pres rule) : Prop :=
    match p with
    | None => True
    | Some (n, m) =>
        match r with
        | POk s1 t => n + costs t + Z.of_nat (length (rest s1)) <= Z.of_nat (length (rest s))
        | PErr s1 t => m + costs t + Z.of_nat (length (rest s1)) <= Z.of_nat (length (rest s))
        | _ => True
        end
    end.
  Lemma ends_short : forall f e k q s s1 t, run f e k q s = POk s1 t \/ run f e k q s = PErr s1 t -> (length (rest s1) <= length (rest s))%nat.
  Proof. intros f e k q s s1 t H. pose proof (spare_sound f e k q s) as C. destruct H as [H|H]; rewrite H in C; cbn in C; lia. Qed.
  Lemma credit_eq : forall d h e, credit d h e =
      match e with
      | EStr l => Some (Z.of_nat (length l), 0)
      | EInsens _ | ERange _ _ | EClass _ | EAny | EEoi | ESoi | ENot _ => Some (0, 0)
      | EThen a b => match credit d h a, credit d h b with Some (x, x'), Some (y, y') => Some (x + y, Z.min x' (x + y')) | _, _ => None end
      | EElse a b => match credit d h a, credit d h b with Some (x, x'), Some (y, y') => Some (Z.min x (x' + y), x' + y') | _, _ => None end
      | ESeq a => match credit d h a with Some (x, x') => Some (x, 0) | _ => None end
      | EOpt a => match credit d h a with Some (x, x') => Some (Z.min x x', 0) | _ => None end
      | ERep a => match credit d h a with Some (x, x') => if 0 <=? x then Some (x', 0) else None | _ => None end
      | ERestore a | EPush a => credit d h a
      | EAtomic k a => credit d (match k with Atomic => false | _ => true end) a
      | ERule r a => if h then Some (- bonus r, 0) else match credit d h a with Some (x, x') => Some (Z.min x (- bonus r), Z.min x' 0) | None => None end
      | EPeek | EPop => None
      | ECall r => match d with O => None | S d' => credit d' h (grammar r) end
      | ESkip => match d with O => None | S d' => match credit d' true skip_body with Some (x, x') => Some (Z.min x 0, x') | None => None end end
      end.
  Proof. intros d h e. destruct d, e; reflexivity. Qed.
  Lemma credit_sound : forall f d h e k s, (h = true -> k <> Atomic) -> credited (credit d h e) s (run f e k false s).
  Proof.
    induction f as [|f IH]; intros d h e k s Hk; [unfold credited; destruct (credit d h e) as [[? ?]|]; exact I|].
    assert (CH : forall p, credited (Some (0, 0)) s (take_char p s)).
    { intro p. pose proof (covered_char s p) as C. unfold take_char in *. destruct (rest s) as [|c r] eqn:E; [cbn; rewrite E; cbn; lia|]. destruct (p c); cbn in *; rewrite E in *; cbn in *; lia. }
    assert (TK : forall n o, (forall w, o = Some w -> n + Z.of_nat (length w) <= Z.of_nat (length (rest s))) -> credited (Some (n, 0)) s (take s o)).
    { intros n [w|] H; cbn; [|lia]. specialize (H w eq_refl). lia. }
    rewrite credit_eq. destruct e; cbn [Peg.run]; try apply CH; try exact I.
    - apply TK. intros w H. apply strip_prefix_app in H. rewrite H, app_length. lia.
    - apply TK. intros w H. apply strip_insensitive_app in H. destruct H as (p' & -> & _). rewrite app_length. lia.
    - destruct (rest s) eqn:E; cbn; rewrite ?E; cbn; lia.
    - destruct (pos s); cbn; lia.
    - pose proof (IH d h e1 k s Hk) as H1. destruct (credit d h e1) as [[x x']|]; [|exact I]. destruct (run f e1 k false s) as [s1 t1|s1 t1| |];
        try (destruct (credit d h e2) as [[y y']|]; cbn in *; try exact I; lia).
      pose proof (IH d h e2 k s1 Hk) as H2. destruct (credit d h e2) as [[y y']|]; [|exact I]. destruct (run f e2 k false s1) as [s2 t2|s2 t2| |]; cbn in *; rewrite ?costs_app; try exact I; lia.
    - pose proof (IH d h e1 k s Hk) as H1. destruct (credit d h e1) as [[x x']|]; [|exact I]. destruct (run f e1 k false s) as [s1 t1|s1 t1| |];
        try (destruct (credit d h e2) as [[y y']|]; cbn in *; try exact I; lia).
      pose proof (IH d h e2 k s1 Hk) as H2. destruct (credit d h e2) as [[y y']|]; [|exact I]. destruct (run f e2 k false s1) as [s2 t2|s2 t2| |]; cbn in *; rewrite ?costs_app; try exact I; lia.
    - pose proof (IH d h e k s Hk) as H1. destruct (credit d h e) as [[x x']|]; [|exact I]. destruct (run f e k false s) as [s1 t1|s1 t1| |]; cbn in *; try exact I; lia.
    - pose proof (IH d h e k s Hk) as H1. destruct (credit d h e) as [[x x']|]; [|exact I]. destruct (run f e k false s) as [s1 t1|s1 t1| |]; cbn in *; try exact I; lia.
    - pose proof (IH d h e k s Hk) as H1. assert (IHR : forall s1, credited (credit d h (ERep e)) s1 (run f (ERep e) k false s1)) by (intro; apply IH, Hk).
      rewrite credit_eq in IHR. destruct (credit d h e) as [[x x']|]; [|exact I]. destruct (0 <=? x) eqn:Hx; [|exact I]. apply Z.leb_le in Hx.
      destruct (run f e k false s) as [s1 t1|s1 t1| |]; cbn in H1; try exact I; [|cbn; lia].
      specialize (IHR s1). destruct (run f (ERep e) k false s1) as [s2 t2|s2 t2| |]; cbn in *; rewrite ?costs_app; try exact I; lia.
    - pose proof (IH d h e k s Hk) as H1. destruct (credit d h e) as [[x x']|]; [|exact I]. destruct (run f e k false s) as [s1 t1|s1 t1| |]; cbn in *; try exact I; lia.
    - destruct (run f e k true s) as [s1 t1|s1 t1| |]; cbn; try exact I; lia.
    - assert (EM : credited (Some (- bonus r, 0)) s (match run f e k false s with POk s1 t1 => POk s1 [Node r (pos s) (pos s1) (consumed (rest s) (rest s1)) t1] | PErr s1 t1 => PErr s1 [] | x => x end)).
      { destruct (run f e k false s) as [s1 t1|s1 t1| |] eqn:E; cbn [credited]; try exact I.
        - destruct (ok_ends U grammar skip_body _ _ _ _ _ _ _ E) as [w Ew]. cbn [costs]. unfold cost, width. cbn [t_text t_rule]. rewrite Ew, consumed_app, app_length. lia.
        - cbn. pose proof (ends_short f e k false s s1 t1 (or_intror E)). lia. }
      destruct (emits k false) eqn:EK.
      + destruct h; [exact EM|]. destruct (credit d false e) as [[x x']|]; [|exact I]. destruct (run f e k false s) as [s1 t1|s1 t1| |]; cbn in *; try exact I; lia.
      + destruct h; [destruct k; try discriminate EK; contradiction Hk; reflexivity|]. pose proof (IH d false e k s Hk) as H1.
        destruct (credit d false e) as [[x x']|]; [|exact I]. destruct (run f e k false s) as [s1 t1|s1 t1| |]; cbn in *; try exact I; lia.
    - apply IH. destruct k0; discriminate.
    - pose proof (IH d h e k s Hk) as H1. destruct (credit d h e) as [[x x']|]; [|exact I]. destruct (run f e k false s) as [s1 t1|s1 t1| |]; cbn in *; try exact I; lia.
    - destruct d as [|d]; [exact I|]. apply IH, Hk.
    - destruct d as [|d]; [exact I|]. assert (H1 : credited (credit d true skip_body) s (run f skip_body NonAtomic false s)) by (apply IH; discriminate).
      destruct (credit d true skip_body) as [[x x']|]; [|exact I]. destruct k; try (cbn; lia). destruct (run f skip_body NonAtomic false s) as [s1 t1|s1 t1| |]; cbn in *; try exact I; lia.
  Qed.
  Local Open Scope nat_scope.
  (** ** Every pair *)
  Variable text : str.
  Definition within (w : str) : Prop := exists p, text = p ++ w.
  Lemma within_suffix : forall p w, within (p ++ w) -> within w.
  Proof. intros p w [p' H]. exists (p' ++ p). rewrite H. apply app_assoc. Qed.
  Definition bracketed (r : rule) : nat := match r with R_list => 1 | _ => 0 end.
  Definition roomy (r : rule) (x : str) (l : list (tree rule)) : Prop :=
    has x text /\ (r = R_EOI \/ x <> []) /\ bracketed r + total l <= length x /\ (r = R_slice -> (1 + costs l <= Z.of_nat (length x))%Z).
  Fixpoint roomy_chk (e : pexp rule) : bool :=
    match e with
    | EThen a b | EElse a b => roomy_chk a && roomy_chk b
    | ESeq a | EOpt a | ERep a | ERestore a | EAtomic _ a | EPush a => roomy_chk a
    | ERule r a => roomy_chk a && (match r with R_EOI => true | _ => 0 <? least grammar 12 a end) && (bracketed r <=? spare a)
        && (match r with R_slice => match credit 6 true a with Some (x, _) => (1 <=? x)%Z | None => false end | _ => true end)
    | _ => true
    end.
  Lemma roomy_sound : forall e, roomy_chk e = true -> sound_rules U grammar skip_body within roomy e.
  Proof.
    induction e; intro H; cbn [roomy_chk sound_rules] in *; try exact I; try (exact (IHe H)).
    - apply andb_prop in H as [H1 H2]. auto.
    - apply andb_prop in H as [H1 H2]. auto.
    - apply andb_prop in H as [H H4]. apply andb_prop in H as [H H3]. apply andb_prop in H as [H1 H2]. split; [auto|]. intros f k s s' ts x Hk [p W] E Ex. split; [|split; [|split]].
      + exists p, (rest s'). rewrite W, Ex. reflexivity.
      + assert (Hr : r = R_EOI \/ (0 <? least grammar 12 e) = true) by (destruct r; auto). destruct Hr as [Hr|Hr]; [left; exact Hr|right].
        apply Nat.ltb_lt in Hr. pose proof (least_sound U grammar skip_body _ 12 _ _ _ _ _ _ E) as L. rewrite Ex, app_length in L. intro Z. subst x. cbn [length] in L. lia.
      + apply Nat.leb_le in H3. pose proof (spare_sound f e k false s) as L. rewrite E in L. cbn in L. rewrite Ex, app_length in L. lia.
      + intros ->. pose proof (credit_sound f 6 true e k s (fun _ => Hk)) as L. destruct (credit 6 true e) as [[y y']|]; [|discriminate]. apply Z.leb_le in H4. rewrite E in L. cbn in L. rewrite Ex, app_length in L. lia.
  Qed.
  Lemma grammar_roomy : forall r, roomy_chk (grammar r) = true.
  Proof. intro r. destruct r; vm_compute; reflexivity. Qed.
End Spare.

Section Trees.
  Variable f text : str.
  Notation F := (ProofShape.fine (roomy text)).
  Notation drawn := (drawn text).
  Notation rule_of := SpecValue.rule_of.
  Notation text_of := SpecValue.text_of.
  Definition sizes (vs : list ast) : nat := list_sum (map nodes vs).
  Definition pair_sizes (kvs : list (ast * ast)) : nat := list_sum (map (fun o => nodes (fst o) + nodes (snd o)) kvs).
  Definition param_size (p : parameter) : nat := sizes (arguments p) + pair_sizes (options p).
  Definition drawn_pairs (kvs : list (ast * ast)) : Prop := Forall (fun o => drawn (fst o) /\ drawn (snd o)) kvs.
  Definition drawn_param (p : parameter) : Prop := Forall drawn (arguments p) /\ drawn_pairs (options p).
  Lemma sizes_cons : forall v vs, sizes (v :: vs) = nodes v + sizes vs. Proof. reflexivity. Qed.
  Lemma nodes_call : forall s ps, nodes (Function s ps) = S (list_sum (map param_size ps)). Proof. reflexivity. Qed.
  Lemma nodes_at : forall s vs t, nodes (call_at f text s vs t) = S (sizes vs).
  Proof. intros s vs t. unfold call_at. rewrite nodes_call. cbn [map list_sum fold_right]. unfold param_size. cbn [arguments options]. change (pair_sizes []) with 0. cbn. lia. Qed.
  Lemma drawn_at : forall s vs t, taken_symbol text s -> Forall drawn vs -> drawn (call_at f text s vs t).
  Proof. intros s vs t H1 H2. apply drawn_call; [exact H1|]. constructor; [|constructor]. split; [exact H2|constructor]. Qed.

  Lemma fine_inv : forall r i j w l, F (Node r i j w l) ->
    has w text /\ (r = R_EOI \/ w <> []) /\ bracketed r + total l <= length w /\ (r = R_slice -> (1 + costs l <= Z.of_nat (length w))%Z) /\ Forall F l.
  Proof. intros r i j w l H. inversion H as [? ? ? ? ? P H']; subst. destruct P as (P1 & P2 & P3 & P4). auto. Qed.
  Lemma fine_text : forall t, F t -> has (text_of t) text.
  Proof. intros [r i j w l] H. apply fine_inv in H. apply H. Qed.
  Lemma fine_width : forall t, F t -> rule_of t <> R_EOI -> 1 <= width t.
  Proof. intros [r i j w l] H N. apply fine_inv in H as (_ & [E|E] & _); [contradiction N|]. unfold width. cbn. destruct w; [congruence|cbn; lia]. Qed.
  Lemma width_text : forall t, width t = length (text_of t).
  Proof. intros []. reflexivity. Qed.

  Lemma standard_taken : forall m n, In (lit "std::" ++ m ++ lit "::" ++ n) added_names -> symbol_from (lit "std::" ++ m ++ lit "::" ++ n) = standard m n -> taken_symbol text (standard m n).
  Proof. intros m n H E. eapply taken_name; [right; exact H|]. apply ProofValue.named_symbol. symmetry. exact E. Qed.
  Ltac word := solve [apply standard_taken; [unfold added_names; repeat (first [left; reflexivity | right])|reflexivity]].
  Lemma named_taken : forall w s, named w s -> has w text -> taken_symbol text s.
  Proof. intros w s H Hw. exact (taken_name text w s (or_introl Hw) H). Qed.
  Lemma lookup_in : forall V s (l : list (str * V)) v, SpecSource.lookup s l = Some v -> In (s, v) l.
  Proof. induction l as [|[k x] l IH]; intros v H; [discriminate|]. cbn in H. destruct (str_eqb s k) eqn:E; [|right; auto]. injection H as ->. left. apply str_eqb_eq in E. congruence. Qed.

  Lemma dotted_drawn : forall t a b c, dotted f text t a b c -> drawn a -> drawn b -> drawn c.
  Proof.
    intros t a b c [s|s args opts p ps|n] Ha Hb; inversion Hb as [| | | | |? S|?|? ? S P]; subst.
    - apply drawn_at; [exact S|auto].
    - apply drawn_call; [exact S|]. inversion P as [|? ? [P1 P2] P']; subst. constructor; [|exact P']. split; [constructor; auto|exact P2].
    - apply drawn_at; [word|auto].
  Qed.
  Lemma dotted_nodes : forall t a b c, dotted f text t a b c -> nodes c <= S (nodes a + nodes b).
  Proof. intros t a b c [s|s args opts p ps|n]; rewrite ?nodes_at, ?nodes_call; cbn -[nodes sizes]; unfold param_size; cbn [arguments options]; rewrite ?sizes_cons; cbn; try lia. Qed.
  Lemma prefixed_drawn : forall l a b, prefixed f text l a b -> Forall F l -> drawn a -> drawn b /\ nodes b <= nodes a + total l.
  Proof.
    induction 1 as [a|t l a b n Ht _ IH Hn]; intros Hl Ha; [split; [exact Ha|cbn; lia]|]. inversion Hl as [|? ? H1 H2]; subst.
    destruct (IH H2 Ha) as [D N]. assert (W : 1 <= width t) by (apply fine_width; [exact H1|rewrite Ht; discriminate]). split.
    - apply drawn_at; [|auto]. apply taken_prefix; [exact Hn|apply fine_text, H1].
    - rewrite nodes_at, sizes_cons, total_cons. cbn. lia.
  Qed.
  Lemma factors_drawn : forall l vs, Forall2 factor_value l vs -> Forall F l -> Forall drawn vs /\ sizes vs <= total l.
  Proof.
    induction 1 as [|t v l vs H _ IH]; intro Hl; [split; [constructor|cbn; lia]|]. inversion Hl as [|? ? H1 H2]; subst. destruct (IH H2) as [D N].
    pose proof (fine_width _ H1) as W. pose proof (fine_text _ H1) as T. rewrite sizes_cons, total_cons. destruct H as [i j w l' Hd|i j w l' s Hs]; cbn in T;
      specialize (W ltac:(discriminate)); (split; [constructor; [|exact D]|cbn; cbn in W; lia]).
    - apply drawn_integer. apply taken_numeral; assumption.
    - apply drawn_symbol. eapply named_taken; eauto.
  Qed.
  Lemma slots_drawn : forall l vs, Forall2 slot_value l vs -> Forall F l -> Forall drawn vs /\ sizes vs <= total l.
  Proof.
    induction 1 as [|t v l vs H _ IH]; intro Hl; [split; [constructor|cbn; lia]|]. inversion Hl as [|? ? H1 H2]; subst. destruct (IH H2) as [D N].
    pose proof (fine_width _ H1) as W. pose proof (fine_text _ H1) as T. rewrite sizes_cons, total_cons. destruct H as [i j w l'|i j w l' Hd]; cbn in T;
      specialize (W ltac:(discriminate)); (split; [constructor; [|exact D]|cbn; cbn in W; lia]).
    - apply drawn_string. exact T.
    - apply drawn_integer. apply taken_numeral; assumption.
  Qed.
  Lemma refers_drawn : forall w s n, refers w s n -> has w text -> taken_symbol text s /\ drawn (Integer n).
  Proof.
    intros w s n H Hw. assert (R : forall c, register c s -> taken_symbol text s) by (intros c [[_ ->]|[_ ->]]; word).
    destruct H as [c s n Hr Hd|c s k Hr]; (split; [apply (R c Hr)|]); apply drawn_integer.
    - apply taken_numeral; [|exact Hd]. eapply has_trans; [|exact Hw]. exists [c], []. rewrite app_nil_r. reflexivity.
    - apply taken_marks. apply has_length in Hw. rewrite repeat_length in Hw. lia.
  Qed.
  Lemma string_drawn : forall t s, string_value t s -> F t -> has s text.
  Proof.
    intros t s [i j s' l|i j w l x l' Hx _] H; apply fine_inv in H as (T & _ & _ & _ & L).
    - eapply has_trans; [|exact T]. exists [34%N], [34%N]. reflexivity.
    - apply Forall_app in L as [_ L]. inversion L; subst. apply fine_text. assumption.
  Qed.
  Lemma special_drawn : forall w a, special w a -> has w text -> drawn a /\ nodes a = 1.
  Proof.
    intros w a [] H; (split; [|reflexivity]).
    - apply drawn_symbol. apply (taken_name text (lit "std::constant:Null")); [right; do 9 right; left; reflexivity|]. apply ProofValue.named_symbol. reflexivity.
    - apply drawn_true, H.
    - apply drawn_false, H.
  Qed.
  (** options are among the writes *)
  Lemma sum_incl : forall A (F : A -> nat) l m, NoDup l -> incl l m -> list_sum (map F l) <= list_sum (map F m).
  Proof.
    intros A G. induction l as [|x l IH]; intros m N I; [cbn; lia|]. inversion N as [|? ? Nx Nl]; subst.
    destruct (in_split x m (I x (or_introl eq_refl))) as (m1 & m2 & ->). rewrite map_app, list_sum_app. cbn [map list_sum fold_right].
    change (fold_right Nat.add 0) with list_sum. specialize (IH (m1 ++ m2) Nl). rewrite map_app, list_sum_app in IH.
    enough (E : incl l (m1 ++ m2)) by (specialize (IH E); lia).
    intros y Hy. specialize (I y (or_intror Hy)). apply in_app_iff in I as [I|[I|I]]; [apply in_app_iff; auto|congruence|apply in_app_iff; auto].
  Qed.
  Lemma collected_among : forall writes opts, collected writes opts -> NoDup opts /\ incl opts writes.
  Proof.
    intros writes opts [S M]. split.
    - apply NoDup_nth_error. intros i j Hi E. assert (K : forall i j, i < j -> i < length opts -> nth_error opts i = nth_error opts j -> False).
      { clear i j Hi E. intros i j L Hi E. destruct (nth_error opts i) as [[k v]|] eqn:Ei; [|apply nth_error_None in Ei; lia].
        assert (Q : tree_before k k) by (apply (S i j); [exact L|erewrite map_nth_error by exact Ei; reflexivity|erewrite map_nth_error by (symmetry; exact E); reflexivity]).
        apply order_lt in Q. rewrite compare_self in Q. discriminate. }
      destruct (lt_eq_lt_dec i j) as [[L|L]|L]; [contradiction (K i j L Hi E)|exact L|]. exfalso. apply (K j i L); [|congruence].
      apply nth_error_Some. rewrite <- E. apply nth_error_Some, Hi.
    - intros [k v] H. apply M in H. destruct H as [before k' after <- _]. apply in_app_iff. right. left. reflexivity.
  Qed.

  Definition ok (t : tree rule) (a : ast) : Prop := drawn a /\ nodes a <= 2 * width t.
  Lemma total_in : forall r i j w l, F (Node r i j w l) -> total l <= length w.
  Proof. intros r i j w l H. apply fine_inv in H as (_ & _ & H & _). lia. Qed.
  Lemma fine_inner : forall r i j w l, F (Node r i j w l) -> Forall F l.
  Proof. intros r i j w l H. apply fine_inv in H. apply H. Qed.
  Lemma operator_taken : forall o q n p, SpecSource.lookup o SpecSource.operators = Some (q, n, p) -> o <> lit "." -> has o text ->
    taken_symbol text (mkSymbol [lit "std"; lit "infix"] n (Infix o p) 0).
  Proof.
    intros o q n p H Hd Ho. exact (taken_infix text o q n p H Ho).
  Qed.
  Lemma suffix_taken : forall o n, SpecSource.lookup o suffix_names = Some n -> has o text -> taken_symbol text (mkSymbol [lit "std"; lit "suffix"] n (Suffix o) 0).
  Proof.
    intros o n H Ho. exact (taken_suffix text o n H Ho).
  Qed.
  Lemma found_some : forall V o (l : list (str * V)) v, SpecSource.lookup o l = Some v -> Forall (fun p => fst p <> []) l -> 1 <= length o.
  Proof. intros V o l v H A. apply lookup_in in H. rewrite Forall_forall in A. apply A in H. destruct o; [contradiction H; reflexivity|cbn; lia]. Qed.
  Lemma one_drawn : drawn (Integer 1). Proof. apply drawn_integer, taken_bound. Qed.
  Lemma all_drawn : drawn (Sym (standard (lit "core") (lit "All"))). Proof. apply drawn_symbol. word. Qed.
  Lemma span_drawn : forall a b c t, drawn a -> drawn b -> drawn c -> drawn (call_at f text (standard (lit "core") (lit "Span")) [a; b; c] t).
  Proof. intros. apply drawn_at; [word|auto]. Qed.

  Lemma all_drawn_from :
    (forall t a, expr_value f text t a -> F t -> ok t a) /\
    (forall t b a, group_value f text t b a -> Forall F (written b) -> drawn a /\ nodes a <= 2 * total (written b)) /\
    (forall t a, term_value f text t a -> F t -> ok t a) /\
    (forall r a b, suffixed f text r a b -> Forall F r -> drawn a -> drawn b /\ nodes b <= nodes a + 2 * total r) /\
    (forall l vs, indices_value f text l vs -> Forall F l -> Forall drawn vs /\ (Z.of_nat (sizes vs) <= 2 * costs l)%Z) /\
    (forall t a, index_value f text t a -> F t -> t_rule t = R_index /\ drawn a /\ nodes a <= 2 * width t + 2) /\
    (forall r d l v, bound_value f text r d l v -> Forall F l -> (l = [] /\ v = d) \/ (drawn v /\ nodes v <= 2 * total l)) /\
    (forall t a, node_value f text t a -> F t -> ok t a) /\
    (forall l ps, applies f text l ps -> Forall F l -> Forall drawn_param ps /\ list_sum (map param_size ps) <= 2 * total l) /\
    (forall l args kvs, arguments_value f text l args kvs -> Forall F l ->
       Forall drawn args /\ drawn_pairs kvs /\ sizes args + pair_sizes kvs <= 2 * total l) /\
    (forall t a, data_value f text t a -> F t -> ok t a) /\
    (forall l vs, elements_value f text l vs -> Forall F l -> Forall drawn vs /\ sizes vs <= 2 * total l).
  Proof.
    apply values_all.
    - intros i j w x0 l k b a t _ _ _ Hw _ IH Ht. unfold t in Ht. pose proof (fine_inner _ _ _ _ _ Ht) as L. pose proof (total_in _ _ _ _ _ Ht) as T.
      rewrite total_app in T. apply Forall_app in L as [L _]. rewrite Hw in IH. destruct (IH L) as [D N]. split; [exact D|]. unfold width. cbn. lia.
    - intros t x a _ IH H. cbn [written] in *. inversion H; subst. destruct (IH ltac:(assumption)) as [D N]. split; [exact D|]. rewrite total_cons. cbn. lia.
    - intros t l o r a b c Ho _ IHl _ IHr Hd H. cbn [written] in *. apply Forall_app in H as [Hl H]. inversion H as [|? ? H1 H2]; subst.
      destruct (IHl Hl) as [Dl Nl]. destruct (IHr H2) as [Dr Nr]. split; [exact (dotted_drawn _ _ _ _ Hd Dl Dr)|].
      assert (W : 1 <= width o) by (apply fine_width; [exact H1|rewrite Ho; discriminate]). pose proof (dotted_nodes _ _ _ _ Hd). rewrite total_app, total_cons. lia.
    - intros t l o r a b q n p Ho Hd _ IHl _ IHr Hs H. cbn [written] in *. apply Forall_app in H as [Hl H]. inversion H as [|? ? H1 H2]; subst.
      destruct (IHl Hl) as [Dl Nl]. destruct (IHr H2) as [Dr Nr]. split; [apply drawn_at; [apply (operator_taken _ _ _ _ Hs Hd), fine_text, H1|auto]|].
      assert (W : 1 <= width o) by (rewrite width_text; apply (found_some _ _ _ _ Hs); repeat constructor; discriminate).
      rewrite nodes_at, !sizes_cons, total_app, total_cons. change (sizes []) with 0. lia.
    - intros i j w l x r a b c _ IHn _ IHs Hp H. pose proof (fine_inner _ _ _ _ _ H) as L. pose proof (total_in _ _ _ _ _ H) as T.
      rewrite total_app, total_cons in T. apply Forall_app in L as [L L']. inversion L' as [|? ? Lx Lr]; subst. destruct (IHn Lx) as [D1 N1]. destruct (IHs Lr D1) as [D2 N2].
      destruct (prefixed_drawn _ _ _ Hp L D2) as [D3 N3]. split; [exact D3|]. unfold width. cbn [t_text]. unfold ok in *. lia.
    - intros a _ D. split; [exact D|cbn; lia].
    - intros t r a b n Ht Hn _ IH H D. inversion H as [|? ? H1 H2]; subst.
      destruct (IH H2) as [D2 N2]; [apply drawn_at; [apply (suffix_taken _ _ Hn), fine_text, H1|auto]|]. split; [exact D2|].
      rewrite nodes_at, sizes_cons in N2. change (sizes []) with 0 in N2. rewrite total_cons.
      assert (W : 1 <= width t) by (apply fine_width; [exact H1|rewrite Ht; discriminate]). lia.
    - intros i j w l r a b vs _ IHl _ IH H D. inversion H as [|? ? H1 H2]; subst. pose proof (fine_inv _ _ _ _ _ H1) as (_ & _ & _ & C & L). specialize (C eq_refl).
      destruct (IHl L) as [Dv Nv]. destruct (IH H2) as [D2 N2]; [apply drawn_at; [word|auto]|]. split; [exact D2|].
      rewrite nodes_at, sizes_cons in N2. rewrite total_cons. unfold width. cbn [t_text]. lia.
    - intros _. split; [constructor|cbn; lia].
    - intros c l vs Hc _ IH H. inversion H as [|? ? H1 H2]; subst. destruct (IH H2) as [D N]. split; [exact D|]. cbn [costs].
      assert (W : 1 <= width c) by (apply fine_width; [exact H1|rewrite Hc; discriminate]).
      assert (B : bonus (t_rule c) = (-1)%Z) by (destruct c; cbn in Hc |- *; rewrite Hc; reflexivity). unfold cost. rewrite B. lia.
    - intros x l v vs _ IHx _ IH H. inversion H as [|? ? H1 H2]; subst. destruct (IH H2) as [D N]. destruct (IHx H1) as (R & Dx & Nx). split; [constructor; auto|].
      cbn [costs]. unfold cost. rewrite R, sizes_cons. cbn [bonus]. lia.
    - intros i j w x v _ IH H. pose proof (fine_inner _ _ _ _ _ H) as L. pose proof (total_in _ _ _ _ _ H) as T. inversion L as [|? ? H1 _]; subst.
      destruct (IH H1) as [D N]. split; [reflexivity|]. split; [exact D|]. rewrite total_cons in T. unfold width in *. cbn [t_text]. lia.
    - intros i j w a c b va vb t _ IHa Hc _ IHb H. unfold t in H. pose proof (fine_inner _ _ _ _ _ H) as L. pose proof (total_in _ _ _ _ _ H) as T.
      rewrite total_app, total_cons in T. apply Forall_app in L as [La L]. inversion L as [|? ? Lc Lb]; subst.
      assert (W : 1 <= width c) by (apply fine_width; [exact Lc|rewrite Hc; discriminate]).
      assert (A : drawn va /\ nodes va <= 2 * total a + 1) by (destruct (IHa La) as [[-> ->]|[D N]]; [split; [apply one_drawn|cbn; lia]|split; [exact D|lia]]).
      assert (B : drawn vb /\ nodes vb <= 2 * total b + 1) by (destruct (IHb Lb) as [[-> ->]|[D N]]; [split; [apply all_drawn|cbn; lia]|split; [exact D|lia]]).
      split; [reflexivity|]. split; [apply span_drawn; [apply A|apply B|apply one_drawn]|]. rewrite nodes_at, !sizes_cons. change (sizes []) with 0. change (nodes (Integer 1)) with 1. unfold width in *. cbn [t t_text] in *. lia.
    - intros i j w a c b d e va vb ve t _ IHa Hc _ IHb Hd _ IHe H. unfold t in H. pose proof (fine_inner _ _ _ _ _ H) as L. pose proof (total_in _ _ _ _ _ H) as T.
      rewrite total_app, total_cons, total_app, total_cons in T. apply Forall_app in L as [La L]. inversion L as [|? ? Lc Lb']; subst. apply Forall_app in Lb' as [Lb L']. inversion L' as [|? ? Ld Le]; subst.
      assert (W : 1 <= width c) by (apply fine_width; [exact Lc|rewrite Hc; discriminate]).
      assert (W' : 1 <= width d) by (apply fine_width; [exact Ld|rewrite Hd; discriminate]).
      assert (A : drawn va /\ nodes va <= 2 * total a + 1) by (destruct (IHa La) as [[-> ->]|[D N]]; [split; [apply one_drawn|cbn; lia]|split; [exact D|lia]]).
      assert (B : drawn vb /\ nodes vb <= 2 * total b + 1) by (destruct (IHb Lb) as [[-> ->]|[D N]]; [split; [apply all_drawn|cbn; lia]|split; [exact D|lia]]).
      assert (C : drawn ve /\ nodes ve <= 2 * total e + 1) by (destruct (IHe Le) as [[-> ->]|[D N]]; [split; [apply one_drawn|cbn; lia]|split; [exact D|lia]]).
      split; [reflexivity|]. split; [apply span_drawn; [apply A|apply B|apply C]|]. rewrite nodes_at, !sizes_cons. change (sizes []) with 0. unfold width in *. cbn [t t_text] in *. lia.
    - intros r d _. left. split; reflexivity.
    - intros r d i j w x v _ IH H. right. inversion H as [|? ? H1 _]; subst. pose proof (fine_inner _ _ _ _ _ H1) as L. pose proof (total_in _ _ _ _ _ H1) as T.
      inversion L as [|? ? Lx _]; subst. destruct (IH Lx) as [D N]. split; [exact D|]. rewrite !total_cons in *. unfold width in *. cbn [t_text] in *. lia.
    - intros i j w x l v _ IH H. pose proof (fine_inner _ _ _ _ _ H) as L. pose proof (total_in _ _ _ _ _ H) as T. inversion L as [|? ? Lx _]; subst.
      destruct (IH Lx) as [D N]. split; [exact D|]. rewrite total_cons in T. unfold width in *. cbn [t_text] in *. lia.
    - intros i j w i' j' w' h l l' s ps Hh Hs _ IH H. pose proof (fine_inner _ _ _ _ _ H) as L. pose proof (total_in _ _ _ _ _ H) as T. inversion L as [|? ? La _]; subst.
      pose proof (fine_inner _ _ _ _ _ La) as L2. pose proof (total_in _ _ _ _ _ La) as T2. inversion L2 as [|? ? Lh Ll]; subst. destruct (IH Ll) as [D N].
      assert (W : 1 <= width h) by (apply fine_width; [exact Lh|rewrite Hh; discriminate]). split.
      + apply drawn_call; [exact (named_taken _ _ Hs (fine_text _ Lh))|exact D].
      + rewrite nodes_call. rewrite !total_cons in *. unfold width in *. cbn [t_text] in *. lia.
    - intros i j w i' j' w' l l' vs t Hv H. unfold t in H. pose proof (fine_inner _ _ _ _ _ H) as L. pose proof (total_in _ _ _ _ _ H) as T. inversion L as [|? ? La _]; subst.
      pose proof (fine_inner _ _ _ _ _ La) as L2. pose proof (total_in _ _ _ _ _ La) as T2. destruct (factors_drawn _ _ Hv L2) as [D N]. split.
      + apply drawn_at; [apply taken_product|exact D].
      + assert (W : 1 <= width (Node R_space_call i' j' w' l)) by (apply fine_width; [exact La|discriminate]). rewrite nodes_at. rewrite !total_cons in *. unfold width in *. cbn [t_text] in *. lia.
    - intros i j w i' j' w' x l l' v _ IH H. pose proof (fine_inner _ _ _ _ _ H) as L. pose proof (total_in _ _ _ _ _ H) as T. inversion L as [|? ? La _]; subst.
      pose proof (fine_inner _ _ _ _ _ La) as L2. pose proof (total_in _ _ _ _ _ La) as T2. inversion L2 as [|? ? Lx _]; subst. destruct (IH Lx) as [D N]. split; [exact D|].
      rewrite !total_cons in *. unfold width in *. cbn [t_text] in *. lia.
    - intros _. split; [constructor|cbn; lia].
    - intros i j w l r args writes opts ps t _ IHa Hc _ IH H. inversion H as [|? ? H1 H2]; subst. unfold t in H1. pose proof (fine_inner _ _ _ _ _ H1) as L. pose proof (total_in _ _ _ _ _ H1) as T.
      destruct (IHa L) as (D1 & D2 & N). destruct (IH H2) as [D3 N3]. destruct (collected_among _ _ Hc) as [ND IN]. split.
      + constructor; [|exact D3]. split; [exact D1|]. apply Forall_forall. intros o Ho. unfold drawn_pairs in D2. rewrite Forall_forall in D2. apply D2, IN, Ho.
      + cbn [map list_sum fold_right]. change (fold_right Nat.add 0) with list_sum. unfold param_size at 1. cbn [arguments options].
        pose proof (sum_incl _ (fun o => nodes (fst o) + nodes (snd o)) opts writes ND IN) as S. unfold pair_sizes in *. rewrite total_cons. unfold width. cbn [t t_text]. lia.
    - intros _. split; [constructor|]. split; [constructor|cbn; lia].
    - intros c l args kvs Hc _ IH H. inversion H as [|? ? H1 H2]; subst. destruct (IH H2) as (D1 & D2 & N). split; [exact D1|]. split; [exact D2|]. rewrite total_cons. lia.
    - intros i j w x l v args kvs _ IHx _ IH H. inversion H as [|? ? H1 H2]; subst. destruct (IH H2) as (D1 & D2 & N). pose proof (fine_inner _ _ _ _ _ H1) as L. pose proof (total_in _ _ _ _ _ H1) as T.
      inversion L as [|? ? Lx _]; subst. destruct (IHx Lx) as [D3 N3]. split; [constructor; auto|]. split; [exact D2|]. rewrite sizes_cons, !total_cons in *. unfold width in *. cbn [t_text] in *. lia.
    - intros i j w k s c x l v args kvs Hk Hs Hc _ IHx _ IH H. inversion H as [|? ? H1 H2]; subst. destruct (IH H2) as (D1 & D2 & N). pose proof (fine_inner _ _ _ _ _ H1) as L. pose proof (total_in _ _ _ _ _ H1) as T.
      inversion L as [|? ? Lk L']; subst. inversion L' as [|? ? Lc L'']; subst. inversion L'' as [|? ? Lx _]; subst. destruct (IHx Lx) as [D3 N3].
      assert (W : 1 <= width k) by (apply fine_width; [exact Lk|rewrite Hk; discriminate]). split; [exact D1|]. split.
      + constructor; [split; [apply drawn_symbol, (named_taken _ _ Hs (fine_text _ Lk))|exact D3]|exact D2].
      + unfold pair_sizes in *. cbn [map list_sum fold_right fst snd]. change (fold_right Nat.add 0) with list_sum. change (nodes (Sym s)) with 1. rewrite !total_cons in *. unfold width in *. cbn [t_text] in *. lia.
    - intros i j w l Hd H. pose proof (fine_text _ H) as T. cbn in T. split; [apply drawn_integer, taken_numeral; assumption|]. assert (W : 1 <= width (Node R_Integer i j w l)) by (apply fine_width; [exact H|discriminate]). cbn [nodes]. lia.
    - intros i j x y l Hx Hy H. pose proof (fine_text _ H) as T. cbn [SpecValue.text_of] in T. split; [apply drawn_decimal; assumption|]. assert (W : 1 <= width (Node R_Decimal i j (x ++ lit "." ++ y) l)) by (apply fine_width; [exact H|discriminate]). cbn [nodes]. lia.
    - intros i j b P s l Hb Hs Hg Hu H. pose proof (fine_text _ H) as T. cbn [SpecValue.text_of] in T. split; [apply drawn_integer; eapply taken_based; eassumption|]. cbn [nodes width t_text length]. unfold width. cbn. lia.
    - intros i j w l a Hs H. pose proof (fine_text _ H) as T. cbn [SpecValue.text_of] in T. destruct (special_drawn _ _ Hs T) as [D N]. split; [exact D|].
      assert (W : 1 <= width (Node R_Special i j w l)) by (apply fine_width; [exact H|discriminate]). lia.
    - intros i j w l s Hs H. pose proof (fine_text _ H) as T. cbn [SpecValue.text_of] in T. split; [apply drawn_symbol, (named_taken _ _ Hs T)|].
      assert (W : 1 <= width (Node R_Symbol i j w l)) by (apply fine_width; [exact H|discriminate]). cbn [nodes]. lia.
    - intros i j w l x s _ Hx H. pose proof (fine_inner _ _ _ _ _ H) as L. apply Forall_app in L as [_ L]. inversion L as [|? ? Lx _]; subst. split; [apply drawn_string, (string_drawn _ _ Hx Lx)|].
      assert (W : 1 <= width (Node R_String i j w (l ++ [x]))) by (apply fine_width; [exact H|discriminate]). cbn [nodes]. lia.
    - intros i j w l s n t Hr H. unfold t in *. pose proof (fine_text _ H) as T. cbn [SpecValue.text_of] in T. destruct (refers_drawn _ _ _ Hr T) as [D1 D2]. split; [apply drawn_at; auto|].
      assert (W : 1 <= width (Node R_REPL i j w l)) by (apply fine_width; [exact H|discriminate]). rewrite nodes_at. cbn [sizes map list_sum fold_right nodes]. lia.
    - intros i j w l vs t Hv H. unfold t in *. pose proof (fine_inner _ _ _ _ _ H) as L. pose proof (total_in _ _ _ _ _ H) as T. destruct (slots_drawn _ _ Hv L) as [D N].
      assert (W : 1 <= width (Node R_Slot i j w l)) by (apply fine_width; [exact H|discriminate]). split; [apply drawn_at; [destruct (starts_with (lit "##") w); word|exact D]|].
      rewrite nodes_at. unfold width in *. cbn [t_text] in *. lia.
    - intros i j w l vs t _ IH H. unfold t in *. pose proof (fine_inv _ _ _ _ _ H) as (_ & _ & T & _ & L). cbn [bracketed] in T. destruct (IH L) as [D N]. split; [apply drawn_at; [word|exact D]|].
      rewrite nodes_at. unfold width in *. cbn [t_text] in *. lia.
    - intros _. split; [constructor|cbn; lia].
    - intros c l vs Hc _ IH H. inversion H as [|? ? H1 H2]; subst. destruct (IH H2) as (D1 & N). split; [exact D1|]. rewrite total_cons. lia.
    - intros x l v vs _ IHx _ IH H. inversion H as [|? ? H1 H2]; subst. destruct (IH H2) as (D1 & N). destruct (IHx H1) as [D2 N2]. split; [constructor; auto|]. rewrite sizes_cons, total_cons. lia.
  Qed.
End Trees.

Lemma program_roomy : forall U text s ts, run_program U text = POk s ts -> Forall (ProofShape.fine (roomy text)) ts.
Proof.
  intros U text s ts H. unfold run_program in H.
  pose proof (run_fine U grammar skip_body (within text) (within_suffix text) (roomy text) (fun r => roomy_sound U text _ (grammar_roomy r)) (roomy_sound U text skip_body eq_refl)) as R.
  match type of H with run _ _ _ ?f ?e ?k ?q ?s0 = _ => specialize (R f e k s0 I) end. rewrite H in R. apply R. exists []. reflexivity.
Qed.
Lemma parse_drawn : forall U f text a, parse U f text = Ret (Ok a) -> drawn text a /\ nodes a <= Nat.max 1 (2 * length text).
Proof.
  intros U f text a H. apply parse_tree in H as (s & ts & R & V). apply program_accepts in R. pose proof (program_roomy _ _ _ _ R) as A.
  destruct V as [t _|i j w x l l' a _ Hx]; [split; [apply drawn_empty|cbn [nodes]; lia]|]. inversion A as [|? ? H1 _]; subst.
  pose proof (fine_inv text _ _ _ _ _ H1) as (T & _ & S & _ & L). inversion L as [|? ? Lx _]; subst. destruct (proj1 (all_drawn_from f text) _ _ Hx Lx) as [D N]. split; [exact D|].
  apply has_length in T. rewrite total_cons in S. lia.
Qed.

(** ** Texts that reach the bound *)
Lemma nodes_forget : forall a, nodes (forget_positions a) = nodes a.
Proof.
  induction a as [|l H|s ps H|b|n|d|s|s] using ast_ind'; try reflexivity.
  - cbn [forget_positions nodes]. f_equal. rewrite map_map. f_equal. apply map_ext_in. rewrite Forall_forall in H. exact H.
  - cbn [forget_positions nodes]. f_equal. rewrite map_map. f_equal. apply map_ext_in. rewrite Forall_forall in H. intros [args opts p] Hp. cbn [arguments options].
    destruct (H _ Hp) as [H1 H2]. rewrite !map_map. cbn [fst snd]. cbn [arguments options] in H1, H2. rewrite Forall_forall in H1, H2. f_equal; f_equal; apply map_ext_in.
    + exact H1.
    + intros o Ho. destruct (H2 o Ho) as [-> ->]. reflexivity.
Qed.
Definition spans (n : nat) : str := concat (repeat (lit ",:") n).
Definition many (n : nat) : str := [182%N] ++ lit "[:" ++ spans n ++ lit "]".
Definition whole : outcome ast := SpecSource.span (Ret (Integer 1)) (Ret SpecSource.all_bound) (Ret (Integer 1)).
Lemma spans_indices : forall U n, SpecSource.indices U (lit ":" ++ spans n) (repeat whole (S n)).
Proof.
  intro U. assert (I : SpecSource.index U (lit ":") whole).
  { exact (SpecSource.i_range U [] _ [] 58%N [] [] _ (SpecSource.b_none _ _) eq_refl (fun _ => eq_refl) eq_refl eq_refl (SpecSource.b_none _ _)). }
  induction n as [|n IH]; [exact (SpecSource.i_one U (lit ":") whole [] I eq_refl)|].
  exact (SpecSource.i_more U (lit ":") whole [] 44%N [] _ _ I eq_refl eq_refl eq_refl IH).
Qed.
Lemma all_whole : forall n, exists v, nodes v = 4 /\ SpecSource.all (repeat whole n) = Ret (repeat v n).
Proof. intro n. eexists. split; [|induction n as [|n IH]; [reflexivity|cbn [repeat SpecSource.all]; rewrite IH; reflexivity]]. reflexivity. Qed.
Lemma sizes_repeat : forall v n, sizes (repeat v n) = n * nodes v.
Proof. intros v n. induction n as [|n IH]; [reflexivity|]. cbn [repeat]. rewrite sizes_cons, IH. reflexivity. Qed.
Lemma spans_length : forall n, length (spans n) = 2 * n.
Proof. unfold spans. induction n as [|n IH]; [reflexivity|]. cbn [repeat concat]. rewrite app_length, IH. cbn. lia. Qed.
Lemma many_expr : forall U n, exists a, SpecSource.expr U (many n) (Ret a) /\ nodes a = 2 * length (many n) - 1.
Proof.
  intros U n. destruct (all_whole (S n)) as (v & Nv & E).
  pose proof (SpecSource.s_slice U [] [] (lit ":" ++ spans n) _ [] [] [] eq_refl eq_refl (spans_indices U n) (SpecSource.t_none) (SpecSource.s_nil U)) as S.
  pose proof (SpecSource.t_intro U [] [182%N] _ _ _ eq_refl (SpecSource.n_back U false 0) S) as T.
  pose proof (SpecSource.e_intro U _ _ [] [] [] [] (Leaf _) T (SpecSource.r_nil U) eq_refl (SpecSource.r_nil U) eq_refl eq_refl (wb_leaf _ _ _)) as X.
  cbn [evaluate SpecSource.token_value obind SpecSource.suffix_value SpecSource.prefix_value] in X. rewrite E in X. cbn [obind] in X.
  eexists. split.
  - match type of X with SpecSource.expr _ ?t _ => replace (many n) with t; [exact X|] end. unfold many. rewrite !app_nil_r. cbn [app]. rewrite <- ?app_assoc. reflexivity.
  - unfold SpecSource.call. rewrite nodes_call. unfold many. rewrite !app_length, spans_length. cbn [map list_sum fold_right]. unfold param_size. cbn [arguments options].
    rewrite sizes_cons, sizes_repeat, Nv. cbn. lia.
Qed.
Lemma size_reached : forall U f n, sane U -> exists text a, length text = 2 * n + 4 /\ parse U f text = Ret (Ok a) /\ nodes a = 2 * length text - 1.
Proof.
  intros U f n HU. destruct (many_expr U n) as (a & X & N).
  assert (D := source_text U HU [] (many n) (Ret a) [] eq_refl X eq_refl eq_refl f).
  cbn [app] in D. rewrite app_nil_r in D. destruct (parse U f (many n)) as [[b|e]|k|] eqn:E; cbn [omap obind forget_result] in D; try discriminate D. injection D as D.
  exists (many n), b. split; [unfold many; rewrite !app_length, spans_length; cbn; lia|]. split; [exact E|]. rewrite <- nodes_forget, D, nodes_forget. exact N.
Qed.

Lemma piece_in : forall c w text, In c w -> has w text -> In c text.
Proof. intros c w text H (p & q & ->). apply in_app_iff. right. apply in_app_iff. left. exact H. Qed.
Lemma origin_example : (forall f, exists a, parse ascii_only f [182%N] = Ret (Ok a) /\ nodes a = 2 * length [182%N] /\
    exists b, parse ascii_only f (lit "f(x,k:2)") = Ret (Ok b) /\ nodes b = 4) /\
  drawn (lit "x+1") (Sym (mkSymbol [] (lit "x") Normal 0)) /\ ~ drawn (lit "x+1") (Sym (mkSymbol [] (lit "y") Normal 0)) /\ ~ drawn (lit "x+1") (Integer 2).
Proof.
  split; [|split; [|split]].
  - intros f. eexists. split; [vm_compute; reflexivity|]. split; [vm_compute; reflexivity|]. eexists. split; vm_compute; reflexivity.
  - apply drawn_symbol. apply (taken_name _ (lit "x")); [left; exists [], (lit "+1"); reflexivity|]. apply ProofValue.named_symbol. reflexivity.
  - intro H. inversion H as [| | | | |? T| |]; subst. inversion T as [w s D N| | | |]; subst. apply ProofValue.named_symbol in N.
    assert (W : w = lit "y") by (rewrite <- (display_symbol_from w), <- N; reflexivity). subst w. destruct D as [D|D].
    + apply (piece_in 121%N) in D; [|left; reflexivity]. repeat (destruct D as [D|D]; [discriminate D|]). exact D.
    + repeat (destruct D as [D|D]; [discriminate D|]). exact D.
  - intro H. inversion H as [| | |? T| | | |]; subst. inversion T as [w Hw [Hn Hd] E|b P s Hw Hb _ E| |]; subst.
    + assert (W : w = lit "1"); [|subst w; discriminate E]. destruct Hw as (p & q & E1). destruct w as [|c w]; [contradiction Hn; reflexivity|].
      destruct p as [|p1 [|p2 [|p3 p]]]; cbn in E1; inversion E1; subst; cbn in Hd; try discriminate Hd.
      * destruct w; [reflexivity|discriminate].
      * destruct p; discriminate.
    + apply (piece_in 48%N) in Hw; [|left; reflexivity]. repeat (destruct Hw as [Hw|Hw]; [discriminate Hw|]). exact Hw.
    + lia.
Qed.
