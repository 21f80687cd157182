(** Reading what was printed. *)
From Verif Require Import Base Ast Display SmError Peg Grammar Climber Build SpecAst SpecClimb SpecSyntax SpecText SpecRound.
From Verif Require Import ProofAst ProofDisplay ProofClimber ProofAtom ProofText ProofSource ProofSyntax.
From Verif Require Import SpecSource SpecRound.
Local Open Scope Z_scope.
Local Open Scope outcome_scope.

(** ** Pieces: prefix operators, an operand, exclamation marks *)
Record piece := mkPiece { pre : str; base_text : str; base_tree : otree; bangs : nat }.
Definition piece_text (p : piece) : str := pre p ++ base_text p ++ repeat 33%N (bangs p).
Fixpoint bang_tree (k : nat) (t : otree) {struct k} : otree :=
  match k with O => t | S O => OSuf false t | S (S k) => bang_tree k (OSuf true t) end.
Definition piece_tree (p : piece) : otree := fold_right OPre (bang_tree (bangs p) (base_tree p)) (pre p).
Definition pieces := (piece * list (str * piece))%type.
Fixpoint more_text (l : list (str * piece)) : str := match l with [] => [] | (s, q) :: l => s ++ piece_text q ++ more_text l end.
Definition all_text (r : pieces) : str := piece_text (fst r) ++ more_text (snd r).

Inductive item := Pc (p : piece) | Op (s : str).
Definition item_strength (i : item) : Z := match i with Op s => strength s | Pc _ => 0 end.
Definition item_right (i : item) : bool := match i with Op s => str_eqb s (lit "^") | Pc _ => false end.
Fixpoint insert (b : bracketing item) (s : str) (q : piece) : bracketing item :=
  match b with
  | Leaf x => Bin (Leaf x) (Op s) (Leaf (Pc q))
  | Bin l o r =>
      if (strength s >? item_strength o) || (strength s =? item_strength o) && item_right o then Bin l o (insert r s q)
      else Bin (Bin l o r) (Op s) (Leaf (Pc q))
  end.
Definition items (l : list (str * piece)) : list item := flat_map (fun e => [Op (fst e); Pc (snd e)]) l.
Definition bracket (r : pieces) : bracketing item := fold_left (fun b e => insert b (fst e) (snd e)) (snd r) (Leaf (Pc (fst r))).
Fixpoint read_tree (b : bracketing item) : otree :=
  match b with
  | Leaf (Pc p) => piece_tree p
  | Bin l (Op s) r => OBin s (read_tree l) (read_tree r)
  | _ => OBool false
  end.
Definition reread_pieces (r : pieces) : otree := read_tree (bracket r).

Definition printed_of (t : otree) : Z := match t with OBin s _ _ => printed s | _ => 255 end.
Definition operand (s : str) (x : otree) (r : pieces) : pieces :=
  if printed_of x <? printed s then (mkPiece [] (paren (all_text r)) (reread_pieces r) 0, []) else r.
Fixpoint last_bangs (k : nat) (p : piece) (l : list (str * piece)) : pieces :=
  match l with
  | [] => (mkPiece (pre p) (base_text p) (base_tree p) (bangs p + k), [])
  | (s, q) :: m => (p, (s, fst (last_bangs k q m)) :: snd (last_bangs k q m))
  end.
Fixpoint reading (t : otree) : pieces :=
  match t with
  | OInt n => (if n <? 0 then mkPiece (lit "-") (show_nat (- n)) (OInt (- n)) 0 else mkPiece [] (show_nat n) t 0, [])
  | OBool b => (mkPiece [] (if b then lit "true" else lit "false") t 0, [])
  | OName w l => (mkPiece [] (w ++ path_tail l) t 0, [])
  | OPre c x => let '(p, l) := reading x in (mkPiece (c :: pre p) (base_text p) (base_tree p) (bangs p), l)
  | OSuf double x => let '(p, l) := reading x in last_bangs (if double then 2 else 1) p l
  | OBin s x y => let '(p, l) := operand s x (reading x) in let '(q, m) := operand s y (reading y) in (p, l ++ (s, q) :: m)
  end.

(** ** Bracketing *)
Notation good := (well_bracketed item_strength item_right).
Lemma insert_written : forall b s q, written (insert b s q) = written b ++ [Op s; Pc q].
Proof.
  induction b as [x|l _ o r IH]; intros s q; [reflexivity|]. cbn [insert].
  destruct ((strength s >? item_strength o) || (strength s =? item_strength o) && item_right o); cbn [written].
  - rewrite IH, <- app_assoc. reflexivity.
  - reflexivity.
Qed.
Lemma bracket_written : forall r, written (bracket r) = Pc (fst r) :: items (snd r).
Proof.
  intros [p l]. unfold bracket. cbn [fst snd]. assert (X : forall l b, written (fold_left (fun b e => insert b (fst e) (snd e)) l b) = written b ++ items l).
  { induction l0 as [|[s q] l0 IH]; intros b; cbn [fold_left items flat_map fst snd]; [rewrite app_nil_r; reflexivity|].
    rewrite IH, insert_written, <- app_assoc. reflexivity. }
  rewrite X. reflexivity.
Qed.
Lemma right_strength : forall i j, item_strength i = item_strength j -> item_right i = item_right j.
Proof.
  assert (X : forall s, str_eqb s (lit "^") = true <-> strength s = 4).
  { intros s. split; [intro H; apply str_eqb_eq in H; subst s; reflexivity|]. unfold strength, operators. cbn [lookup].
    repeat match goal with |- context [str_eqb s ?k] => let E := fresh in destruct (str_eqb s k) eqn:E; [intros; try discriminate; try reflexivity|] end; discriminate. }
  assert (Y : forall i, item_right i = true <-> item_strength i = 4).
  { intros [p|s]; cbn; [split; discriminate|apply X]. }
  intros i j H. destruct (item_right i) eqn:A, (item_right j) eqn:B; try reflexivity.
  - apply Y in A. rewrite H in A. apply Y in A. congruence.
  - apply Y in B. rewrite <- H in B. apply Y in B. congruence.
Qed.
Lemma insert_root : forall b s q, exists o, root_op (insert b s q) = Some o /\ (o = Op s \/ root_op b = Some o).
Proof.
  intros [x|l o r] s q; cbn [insert]; [eexists; split; [reflexivity|left; reflexivity]|].
  destruct ((strength s >? item_strength o) || (strength s =? item_strength o) && item_right o); eexists; (split; [reflexivity|]); [right|left]; reflexivity.
Qed.
Lemma insert_good : forall b s q, good b -> good (insert b s q).
Proof.
  induction b as [x|l _ o r IH]; intros s q G; cbn [insert].
  - apply wb_bin; try apply wb_leaf; intros p E; discriminate.
  - inversion G as [|l' o' r' Gl Gr Cl Cr]; subst. destruct ((strength s >? item_strength o) || (strength s =? item_strength o) && item_right o) eqn:T.
    + apply wb_bin; auto. intros p E. destruct (insert_root r s q) as (o' & E' & [->|R]); rewrite E' in E; injection E as <-; [|auto].
      apply orb_prop in T as [T|T]; [left; apply Z.gtb_lt in T; cbn; lia|]. apply andb_prop in T as [T1 T2]. apply Z.eqb_eq in T1. right. split; [exact T1|exact T2].
    + apply wb_bin; [exact G|apply wb_leaf| |intros p E; discriminate]. intros p E. injection E as <-. apply orb_false_elim in T as [T1 T2].
      assert (strength s <= item_strength o) by (rewrite Z.gtb_ltb, Z.ltb_ge in T1; exact T1).
      destruct (Z.eq_dec (strength s) (item_strength o)) as [E|E]; [|left; cbn; lia]. right. split; [cbn; lia|].
      rewrite E, Z.eqb_refl in T2. cbn [andb] in T2. change (strength s) with (item_strength (Op s)) in E. rewrite (right_strength _ _ E). exact T2.
Qed.
Lemma bracket_good : forall r, good (bracket r).
Proof.
  intros [p l]. unfold bracket. cbn [fst snd]. assert (X : forall l b, good b -> good (fold_left (fun b e => insert b (fst e) (snd e)) l b)).
  { induction l0 as [|[s q] l0 IH]; intros b G; cbn [fold_left fst snd]; [exact G|]. apply IH, insert_good. exact G. }
  apply X, wb_leaf.
Qed.
Lemma good_unique : forall t u, good t -> good u -> written t = written u -> t = u.
Proof.
  pose (get := fun i => Some (item_strength i, if item_right i then Right else Left)).
  assert (K : forall t, ProofClimber.known get t) by (induction t; cbn; repeat split; auto; discriminate).
  assert (C : forall t, good t -> well_bracketed (prec get) (rightp get) t).
  { assert (R : forall i, rightp get i = item_right i) by (intros i; unfold rightp, get; destruct (item_right i); reflexivity).
    induction 1 as [x|l o r Gl IHl Gr IHr Cl Cr]; [apply wb_leaf|]. apply wb_bin; [exact IHl|exact IHr| |]; intros p E; rewrite R; unfold prec, get; auto. }
  intros t u Gt Gu H. apply (bracketing_unique get); auto.
  intros a b _ _ E. unfold rightp, get. unfold prec, get in E. rewrite (right_strength a b E). reflexivity.
Qed.

(** ** From pieces to the reference syntax *)
Lemma bang_tree_plus : forall n t, bang_tree (S (S n)) t = bang_tree n (OSuf true t).
Proof. reflexivity. Qed.
Fixpoint bang_list (k : nat) : list suffix := match k with O => [] | S O => [Bang] | S (S k) => BangBang :: bang_list k end.
Lemma nat_pair_ind : forall P : nat -> Prop, P 0%nat -> P 1%nat -> (forall n, P n -> P (S (S n))) -> forall n, P n.
Proof. intros P P0 P1 PS. fix IH 1. intros [|[|n]]; [exact P0|exact P1|apply PS, IH]. Qed.
Lemma bang_value : forall k t, suffix_value (bang_list k) (ast_of t) = Ret (ast_of (bang_tree k t)).
Proof. induction k as [| |k IH] using nat_pair_ind; intros t; [reflexivity|reflexivity|]. exact (IH (OSuf true t)). Qed.
Lemma prefix_known : forall c, In c prefix_signs -> prefix_char c = true /\ exists n, lookup [c] prefix_names = Some n.
Proof. intros c H. cbn in H. repeat (destruct H as [<-|H]; [split; [reflexivity|eexists; reflexivity]|]). destruct H. Qed.
Lemma prefix_values : forall cs t, Forall (fun c => In c prefix_signs) cs -> prefix_value cs (ast_of t) = Ret (ast_of (fold_right OPre t cs)).
Proof.
  induction cs as [|c cs IH]; intros t H; [reflexivity|]. inversion H as [|x l H1 H2]; subst. cbn [prefix_value fold_right ast_of]. rewrite (IH t H2). cbn [obind].
  unfold prefix_call. destruct (proj2 (prefix_known c H1)) as [n ->]. reflexivity.
Qed.
Lemma infix_known : forall s, In s infix_signs -> In s (map fst operators ++ ignored) /\ s <> lit "." /\ exists q n p, lookup s operators = Some (q, n, p) /\ (0 < p < 255).
Proof. intros s H. cbn in H. repeat (destruct H as [<-|H]; [split; [cbn; tauto|split; [discriminate|do 3 eexists; split; [reflexivity|lia]]]|]). destruct H. Qed.

Definition tok (i : item) : token := match i with Pc p => Operand (Ret (ast_of (piece_tree p))) | Op s => Sign s end.
Fixpoint bmap (b : bracketing item) : bracketing token := match b with Leaf x => Leaf (tok x) | Bin l o r => Bin (bmap l) (tok o) (bmap r) end.
Lemma bmap_written : forall b, written (bmap b) = map tok (written b).
Proof. induction b as [x|l IHl o r IHr]; [reflexivity|]. cbn [bmap written]. rewrite map_app, IHl, IHr. reflexivity. Qed.
Lemma tok_strength_same : forall i, token_strength (tok i) = item_strength i /\ token_to_right (tok i) = item_right i.
Proof. intros [p|s]; split; reflexivity. Qed.
Lemma bmap_root : forall b p, root_op (bmap b) = Some p -> exists i, root_op b = Some i /\ p = tok i.
Proof. intros [x|l o r] p H; [discriminate|]. injection H as <-. eexists. split; reflexivity. Qed.
Lemma bmap_good : forall b, good b -> well_bracketed token_strength token_to_right (bmap b).
Proof.
  induction 1 as [x|l o r Gl IHl Gr IHr Cl Cr]; [apply wb_leaf|]. cbn [bmap]. apply wb_bin; [exact IHl|exact IHr| |]; intros p E;
    apply bmap_root in E as (i & E & ->); rewrite !(proj1 (tok_strength_same _)), (proj2 (tok_strength_same _)); auto.
Qed.
Fixpoint shaped (b : bracketing item) : Prop :=
  match b with Leaf (Pc _) => True | Bin l (Op s) r => shaped l /\ In s infix_signs /\ shaped r | _ => False end.
Lemma bmap_value : forall b, shaped b -> evaluate token_value token_apply (bmap b) = Ret (ast_of (read_tree b)).
Proof.
  induction b as [x|l IHl o r IHr]; intros H; [destruct x; [reflexivity|destruct H]|]. destruct o as [p|s]; [destruct H|]. destruct H as (Hl & Hs & Hr).
  cbn [bmap evaluate tok]. rewrite (IHl Hl), (IHr Hr). cbn [obind token_apply read_tree ast_of]. unfold infix_call.
  destruct (infix_known s Hs) as (_ & Nd & q & n & p & L & _). rewrite L. destruct (str_eqb s (lit ".")) eqn:E; [elim Nd; apply str_eqb_eq; exact E|]. reflexivity.
Qed.
Lemma insert_shaped : forall b s q, shaped b -> In s infix_signs -> shaped (insert b s q).
Proof.
  induction b as [x|l _ o r IH]; intros s q H Hs; [cbn; tauto|]. cbn [insert]. destruct o as [p|s']; [destruct H|].
  match goal with |- shaped (if ?c then _ else _) => destruct c end; cbn [shaped] in *; intuition.
Qed.
Lemma bracket_shaped : forall r, Forall (fun e => In (fst e) infix_signs) (snd r) -> shaped (bracket r).
Proof.
  intros [p l] H. unfold bracket. cbn [fst snd] in *. assert (X : forall b, shaped b -> shaped (fold_left (fun b e => insert b (fst e) (snd e)) l b)).
  { induction H as [|[s q] l Hs H IH]; intros b G; cbn [fold_left fst snd]; [exact G|]. apply IH, insert_shaped; assumption. }
  apply X. exact Logic.I.
Qed.

Section Round.
  Variable U : unicode.
  Hypothesis HU : sane U.

  Definition good_piece (p : piece) : Prop := Forall (fun c => In c prefix_signs) (pre p) /\ node U (base_text p) (Ret (ast_of (base_tree p))).
  Definition good_more (l : list (str * piece)) : Prop := Forall (fun e => In (fst e) infix_signs /\ good_piece (snd e)) l.
  Definition good_pieces (r : pieces) : Prop := good_piece (fst r) /\ good_more (snd r).

  Lemma bang_suffixes : forall k, suffixes U (repeat 33%N k) (bang_list k).
  Proof.
    induction k as [| |k IH] using nat_pair_ind; [apply s_nil|exact (s_bang U [] [] (s_nil U) eq_refl)|]. exact (s_bangbang U _ _ IH).
  Qed.
  Lemma piece_term : forall p, good_piece p -> term U (piece_text p) (Ret (ast_of (piece_tree p))).
  Proof.
    intros p (Hp & Hn). assert (P : forallb prefix_char (pre p) = true).
    { apply forallb_forall. intros c Hc. rewrite Forall_forall in Hp. apply prefix_known. auto. }
    pose proof (t_intro U (pre p) (base_text p) _ (repeat 33%N (bangs p)) (bang_list (bangs p)) P Hn (bang_suffixes _)) as T.
    cbn [obind] in T. rewrite bang_value in T. cbn [obind] in T. rewrite prefix_values in T by exact Hp. exact T.
  Qed.
  Lemma node_digit : forall x o, node U x o -> x <> [].
  Proof. intros x o H ->. apply (expr_nonempty U HU [] o (node_expr U [] o H)). reflexivity. Qed.
  Lemma more_rest : forall l, good_more l -> rest U (more_text l) (map tok (items l)).
  Proof.
    induction 1 as [|[s q] l (Hs & Hq) H IH]; [apply r_nil|]. cbn [fst snd] in *. cbn [more_text items flat_map map app fst snd tok].
    destruct (infix_known s Hs) as (I & Nd & _). exact (r_more U [] s [] _ _ _ _ eq_refl I eq_refl (piece_term q Hq) ltac:(intros E; congruence) ltac:(reflexivity) IH).
  Qed.
  Lemma good_signs : forall l, good_more l -> Forall (fun e => In (fst e) infix_signs) l.
  Proof. intros l H. eapply Forall_impl; [|exact H]. intros e [E _]. exact E. Qed.
  Lemma pieces_expr : forall r, good_pieces r -> expr U (all_text r) (Ret (ast_of (reread_pieces r))).
  Proof.
    intros [p l] [Hp Hl]. cbn [fst snd] in *.
    assert (K : forallb SpecSource.known (map tok (items l)) = true).
    { clear -Hl. induction Hl as [|[s q] l [Hs _] H IH]; [reflexivity|]. cbn [fst snd] in *. cbn [items flat_map map app fst snd forallb tok SpecSource.known].
      destruct (infix_known s Hs) as (_ & _ & q0 & n & p & L & _). rewrite L. exact IH. }
    pose proof (e_intro U (piece_text p) _ (more_text l) _ [] [] (bmap (bracket (p, l))) (piece_term p Hp) (more_rest l Hl) K (r_nil U) eq_refl) as E.
    rewrite bmap_written, bracket_written in E. specialize (E eq_refl (bmap_good _ (bracket_good _))).
    rewrite bmap_value in E by (apply bracket_shaped, good_signs; exact Hl). rewrite app_nil_r in E. exact E.
  Qed.
  Lemma last_bangs_good : forall k l p, good_piece p -> good_more l -> good_pieces (last_bangs k p l).
  Proof.
    induction l as [|[s q] l IH]; intros p Hp Hl; cbn [last_bangs]; [split; [exact Hp|constructor]|].
    inversion Hl as [|e l' [Hs Hq] Hl']; subst. destruct (IH q Hq Hl') as [A B]. split; [exact Hp|]. constructor; [split; assumption|exact B].
  Qed.
  Lemma operand_good : forall s x r, good_pieces r -> good_pieces (operand s x r).
  Proof.
    intros s x r H. unfold operand. destruct (printed_of x <? printed s); [|exact H]. split; [|constructor]. split; [constructor|]. cbn [fst base_text base_tree].
    apply n_paren, pieces_expr. exact H.
  Qed.
  Lemma name_node : forall w l, good_name U w l -> node U (w ++ path_tail l) (Ret (Sym (named w l))).
  Proof.
    intros w l (H1 & H2 & H3). apply n_name; [exact H1|exact H2|]. rewrite existsb_app in H3. apply orb_false_elim in H3 as [_ H3]. exact H3.
  Qed.
  Lemma reading_good : forall t, good_tree U t -> good_pieces (reading t).
  Proof.
    induction t as [n|b|w l|c x IH|d x IH|s x IHx y IHy]; intros G; cbn [reading].
    - destruct (Z.ltb_spec n 0) as [L|L]; (split; [|constructor]); split; cbn [fst pre base_text base_tree].
      + constructor; [right; left; reflexivity|constructor].
      + assert (N : 0 <= - n) by (clear -L; lia). destruct (show_nat_numeral (- n) N) as [A B]. pose proof (n_integer U _ A) as X. rewrite B in X. exact X.
      + constructor.
      + destruct (show_nat_numeral n L) as [A B]. pose proof (n_integer U _ A) as X. rewrite B in X. exact X.
    - split; [|constructor]. split; [constructor|]. cbn [fst base_text base_tree ast_of]. destruct b; apply n_constant; constructor.
    - split; [|constructor]. split; [constructor|]. apply name_node. exact G.
    - destruct G as [Hc G]. specialize (IH G). destruct (reading x) as [p l]. destruct IH as [[A B] C]. split; [|exact C]. split; [constructor; assumption|exact B].
    - specialize (IH G). destruct (reading x) as [p l]. destruct IH as [A B]. apply last_bangs_good; assumption.
    - destruct G as (Hs & Gx & Gy). specialize (IHx Gx). specialize (IHy Gy). apply (operand_good s x) in IHx. apply (operand_good s y) in IHy.
      destruct (operand s x (reading x)) as [p l]. destruct (operand s y (reading y)) as [q m]. destruct IHx as [A B], IHy as [C D]. split; [exact A|].
      apply Forall_app. split; [exact B|]. constructor; [split; assumption|exact D].
  Qed.

  (** ** The text is what is printed *)
  Lemma more_text_app : forall l m, more_text (l ++ m) = more_text l ++ more_text m.
  Proof. induction l as [|[s q] l IH]; intros m; [reflexivity|]. cbn [app more_text]. rewrite IH, <- !app_assoc. reflexivity. Qed.
  Lemma repeat_plus : forall (a b : nat), repeat 33%N (a + b) = repeat 33%N a ++ repeat 33%N b.
  Proof. intros a b. apply repeat_app. Qed.
  Lemma last_bangs_text : forall k l p, all_text (last_bangs k p l) = all_text (p, l) ++ repeat 33%N k.
  Proof.
    unfold all_text. induction l as [|[s q] l IH]; intros p; cbn [last_bangs fst snd more_text].
    - unfold piece_text. cbn [pre base_text bangs]. rewrite repeat_plus, !app_nil_r, <- !app_assoc. reflexivity.
    - specialize (IH q). cbn [fst snd] in IH. rewrite <- !app_assoc. do 2 f_equal. etransitivity; [exact IH|]. symmetry. apply app_assoc.
  Qed.
  Lemma printed_precedence : forall t, good_tree U t -> precedence (ast_of t) = printed_of t.
  Proof.
    intros [n|b|w l|c x|d x|s x y] G; try reflexivity; [destruct d; reflexivity|]. destruct G as (Hs & _). cbn [ast_of printed_of]. unfold infix_call, printed.
    destruct (infix_known s Hs) as (_ & _ & q & n & p & -> & _). reflexivity.
  Qed.
  Lemma operand_text : forall s x r, good_tree U x -> all_text (operand s x r) = wrap_operand (ast_of x) (printed s) (all_text r).
  Proof.
    intros s x r G. unfold operand, wrap_operand. rewrite printed_precedence by exact G. destruct (printed_of x <? printed s); [|reflexivity].
    unfold all_text at 1. cbn [fst snd more_text]. unfold piece_text. cbn [pre base_text bangs repeat app]. rewrite !app_nil_r. reflexivity.
  Qed.
  Lemma named_display : forall w l, display_symbol (named w l) = w ++ path_tail l.
  Proof.
    intros w l. unfold display_symbol, named. cbn [name_space name].
    assert (X : forall l w, match removelast (w :: l) with [] => last (w :: l) [] | ns => join (lit "::") ns ++ lit "::" ++ last (w :: l) [] end = w ++ path_tail l).
    { clear. induction l as [|v l IH]; intros w; [cbn; rewrite app_nil_r; reflexivity|]. cbn [path_tail]. specialize (IH v). rewrite <- IH.
      change (removelast (w :: v :: l)) with (w :: removelast (v :: l)). change (last (w :: v :: l) []) with (last (v :: l) (@nil char)).
      destruct (removelast (v :: l)) as [|a m]; [reflexivity|]. change (join (lit "::") (w :: a :: m)) with (w ++ lit "::" ++ join (lit "::") (a :: m)). rewrite <- !app_assoc. reflexivity. }
    apply X.
  Qed.
  Lemma reading_text : forall t, good_tree U t -> display (ast_of t) = Ret (all_text (reading t)).
  Proof.
    induction t as [n|b|w l|c x IH|d x IH|s x IHx y IHy]; intros G; cbn [reading ast_of].
    - cbn [display]. unfold show_int. destruct (Z.ltb_spec n 0) as [L|L]; cbv [all_text piece_text]; cbn [fst snd pre base_text bangs repeat more_text app]; rewrite !app_nil_r; reflexivity.
    - destruct b; reflexivity.
    - cbn [display]. rewrite named_display. cbv [all_text piece_text]. cbn [fst snd pre base_text bangs repeat more_text app]. rewrite !app_nil_r. reflexivity.
    - destruct G as [Hc G]. specialize (IH G). destruct (reading x) as [p l]. unfold prefix_call, call. cbn [display kind is_unary param_is_unary arguments options length Nat.eqb andb]. rewrite IH. reflexivity.
    - specialize (IH G). destruct (reading x) as [p l]. rewrite last_bangs_text. destruct d; unfold suffix_call, call; cbn [display kind is_unary param_is_unary arguments options length Nat.eqb andb]; rewrite IH; reflexivity.
    - destruct G as (Hs & Gx & Gy). specialize (IHx Gx). specialize (IHy Gy). pose proof (operand_text s x (reading x) Gx) as Tx. pose proof (operand_text s y (reading y) Gy) as Ty.
      destruct (operand s x (reading x)) as [p l]. destruct (operand s y (reading y)) as [q m].
      unfold infix_call. unfold printed in Tx, Ty. destruct (infix_known s Hs) as (_ & _ & q0 & n & p0 & L & _). rewrite L in *.
      unfold binary, call. cbn [display kind is_multiary param_is_multiary arguments options length Nat.ltb Nat.leb Nat.eqb andb omapM]. rewrite IHx, IHy. cbn [obind join].
      f_equal. rewrite <- Tx, <- Ty. unfold all_text. cbn [fst snd]. rewrite more_text_app. cbn [more_text]. rewrite <- !app_assoc. reflexivity.
  Qed.

  (** ** The start of the text *)
  Lemma more_lower : forall l, Forall (fun e => In (fst e) infix_signs) l -> head_is lower (more_text l) = false.
  Proof. intros l [|[s q] l' Hs H]; [reflexivity|]. cbn [fst] in Hs. cbn [more_text]. cbn in Hs. repeat (destruct Hs as [<-|Hs]; [reflexivity|]). destruct Hs. Qed.
  Lemma reading_start : forall t, good_tree U t -> plain_start (base_text (fst (reading t))) = true.
  Proof.
    assert (D : forall n, 0 <= n -> plain_start (show_nat n) = true).
    { intros n Hn. destruct (show_nat_numeral n Hn) as [A _]. apply harmless_plain, digit_harmless. destruct (show_nat n) as [|c x]; [discriminate|]. cbn [head_is numeral] in *.
      destruct (c =? 48)%N eqn:E; [apply N.eqb_eq in E; subst c; reflexivity|]. apply andb_prop in A as [A _]. exact A. }
    assert (B : forall k l p, base_text (fst (last_bangs k p l)) = base_text p) by (intros k [|[s q] l] p; reflexivity).
    induction t as [n|b|w l|c x IH|d x IH|s x IHx y IHy]; intros G; cbn [reading].
    - destruct (Z.ltb_spec n 0) as [L|L]; cbn [fst base_text]; apply D; [clear -L; lia|exact L].
    - destruct b; reflexivity.
    - destruct G as (H1 & _ & H3). cbn [fst base_text]. apply word_plain with (U := U); [exact HU|exact H1|]. rewrite existsb_app in H3. apply orb_false_elim in H3 as [H3 _]. exact H3.
    - destruct G as [_ G]. specialize (IH G). destruct (reading x). exact IH.
    - specialize (IH G). destruct (reading x) as [p l]. rewrite B. exact IH.
    - destruct G as (_ & G & _). specialize (IHx G). unfold operand at 1. destruct (printed_of x <? printed s).
      + destruct (operand s y (reading y)). apply harmless_plain. reflexivity.
      + destruct (reading x), (operand s y (reading y)). exact IHx.
  Qed.
  Lemma text_plain : forall t, good_tree U t -> plain_start (all_text (reading t)) = true.
  Proof.
    intros t G. pose proof (reading_start t G) as S. destruct (reading_good t G) as [[P N] M]. destruct (reading t) as [p l]. cbn [fst snd] in *.
    unfold all_text, piece_text. cbn [fst snd]. destruct (pre p) as [|c cs].
    - cbn [app]. rewrite <- app_assoc. apply plain_start_app; [eapply node_digit; exact N|exact S|]. destruct (bangs p); [apply more_lower, good_signs; exact M|reflexivity].
    - inversion P as [|c' cs' Hc _]; subst. cbn [app]. apply harmless_plain. cbn in Hc. repeat (destruct Hc as [<-|Hc]; [reflexivity|]). destruct Hc.
  Qed.
  Definition reread (t : otree) : otree := reread_pieces (reading t).
  Lemma round_text : forall t, good_tree U t -> denotes U (all_text (reading t)) (Ret (ast_of (reread t))).
  Proof.
    intros t G. pose proof (source_text U HU [] (all_text (reading t)) _ [] eq_refl (pieces_expr _ (reading_good t G)) (text_plain t G) eq_refl) as H.
    rewrite app_nil_r in H. exact H.
  Qed.
End Round.

(** ** Faithful trees are read back *)
Lemma bang_even : forall k t, bang_tree (2 * k + 1) t = OSuf false (bang_tree (2 * k) t) /\ bang_tree (2 * k + 2) t = OSuf true (bang_tree (2 * k) t).
Proof.
  induction k as [|k IH]; intros t; [split; reflexivity|]. replace (2 * S k + 1)%nat with (S (S (2 * k + 1))) by lia. replace (2 * S k + 2)%nat with (S (S (2 * k + 2))) by lia.
  replace (2 * S k)%nat with (S (S (2 * k))) by lia. rewrite !bang_tree_plus. apply IH.
Qed.
Lemma single : forall x, faithful x -> no_infix x -> snd (reading x) = [].
Proof.
  induction x as [n|b|w l|c x IH|d x IH|s x IHx y IHy]; intros F N; try reflexivity; [| |destruct N]; destruct F as [F H]; cbn [reading].
  - specialize (IH F H). destruct (reading x) as [p l]. exact IH.
  - assert (I : no_infix x) by (destruct x; try exact H; exact Logic.I). specialize (IH F I). destruct (reading x) as [p l]. cbn [snd] in IH. subst l. reflexivity.
Qed.
Lemma suffixed : forall x, faithful x -> takes_suffix x -> exists t v k, reading x = (mkPiece [] t v (2 * k), []).
Proof.
  induction x as [n|b|w l|c x IH|d x IH|s x IHx y IHy]; intros F T; try (destruct T; fail); cbn [reading].
  - cbn [faithful] in F. destruct (Z.ltb_spec n 0) as [L|L]; [lia|]. exists (show_nat n), (OInt n), 0%nat. reflexivity.
  - exists (if b then lit "true" else lit "false"), (OBool b), 0%nat. reflexivity.
  - exists (w ++ path_tail l), (OName w l), 0%nat. reflexivity.
  - destruct d; [|destruct T]. destruct F as [F H]. destruct (IH F H) as (t & v & k & ->). exists t, v, (S k). cbn [last_bangs pre base_text base_tree bangs].
    replace (2 * k + 2)%nat with (2 * S k)%nat by lia. reflexivity.
Qed.
Lemma bracket_leaf : forall p, bracket (p, []) = Leaf (Pc p).
Proof. reflexivity. Qed.
Lemma root_read : forall r o, Forall (fun e => In (fst e) infix_signs) (snd r) -> root_op (bracket r) = Some o -> exists s x y, o = Op s /\ reread_pieces r = OBin s x y.
Proof.
  intros r o H E. pose proof (bracket_shaped r H) as S. unfold reread_pieces. destruct (bracket r) as [i|b1 o' b2]; [discriminate|]. injection E as ->.
  destruct o as [p|s]; [destruct S|]. exists s, (read_tree b1), (read_tree b2). split; reflexivity.
Qed.
Lemma operand_signs : forall s x r, Forall (fun e => In (fst e) infix_signs) (snd r) -> Forall (fun e => In (fst e) infix_signs) (snd (operand s x r)).
Proof. intros s x r H. unfold operand. destruct (printed_of x <? printed s); [constructor|exact H]. Qed.
Lemma operand_reread : forall s x r, reread_pieces (operand s x r) = reread_pieces r.
Proof. intros s x r. unfold operand. destruct (printed_of x <? printed s); reflexivity. Qed.
Lemma items_app : forall l m, items (l ++ m) = items l ++ items m.
Proof. intros. apply flat_map_app. Qed.
Lemma join_bracket : forall p l s q m,
  (forall o, root_op (bracket (p, l)) = Some o -> item_strength o > strength s \/ item_strength o = strength s /\ str_eqb s (lit "^") = false) ->
  (forall o, root_op (bracket (q, m)) = Some o -> item_strength o > strength s \/ item_strength o = strength s /\ str_eqb s (lit "^") = true) ->
  bracket (p, l ++ (s, q) :: m) = Bin (bracket (p, l)) (Op s) (bracket (q, m)).
Proof.
  intros p l s q m H1 H2. apply good_unique; [apply bracket_good|apply wb_bin; [apply bracket_good|apply bracket_good|exact H1|exact H2]|].
  cbn [written]. rewrite !bracket_written. cbn [fst snd]. rewrite items_app. reflexivity.
Qed.
Section Faithful.
  Variable U : unicode.
  Lemma reading_signs : forall t, good_tree U t -> Forall (fun e => In (fst e) infix_signs) (snd (reading t)).
  Proof.
    assert (B : forall k l p, Forall (fun e : str * piece => In (fst e) infix_signs) l -> Forall (fun e => In (fst e) infix_signs) (snd (last_bangs k p l))).
    { induction l as [|[s q] l IH]; intros p H; [constructor|]. cbn [last_bangs snd]. inversion H; subst. constructor; [assumption|]. apply IH. assumption. }
    induction t as [n|b|w l|c x IH|d x IH|s x IHx y IHy]; intros G; cbn [reading]; try constructor.
    - destruct G as [_ G]. specialize (IH G). destruct (reading x). exact IH.
    - specialize (IH G). destruct (reading x) as [p l]. apply B. exact IH.
    - destruct G as (Hs & Gx & Gy). specialize (IHx Gx). specialize (IHy Gy). apply (operand_signs s x) in IHx. apply (operand_signs s y) in IHy.
      destruct (operand s x (reading x)) as [p l], (operand s y (reading y)) as [q m]. cbn [snd] in *. apply Forall_app. split; [exact IHx|constructor; assumption].
  Qed.
  Lemma operand_root : forall s x o, good_tree U x -> reread x = x -> root_op (bracket (operand s x (reading x))) = Some o ->
    exists s' u v, o = Op s' /\ x = OBin s' u v /\ printed s <= printed s'.
  Proof.
    intros s x o G R E. unfold operand in E. destruct (Z.ltb_spec (printed_of x) (printed s)) as [L|L]; [discriminate|].
    apply root_read in E as (s' & u & v & -> & E); [|apply reading_signs; exact G]. exists s', u, v. split; [reflexivity|]. unfold reread in R. rewrite E in R. subst x.
    split; [reflexivity|exact L].
  Qed.
  Lemma faithful_reread : forall t, good_tree U t -> faithful t -> reread t = t.
  Proof.
    induction t as [n|b|w l|c x IH|d x IH|s x IHx y IHy]; intros G F.
    - cbn [faithful] in F. unfold reread. cbn [reading]. destruct (Z.ltb_spec n 0) as [L|L]; [lia|reflexivity].
    - reflexivity.
    - reflexivity.
    - destruct G as [_ G], F as [F N]. specialize (IH G F). pose proof (single x F N) as S. unfold reread in *. cbn [reading]. destruct (reading x) as [p l]. cbn [snd] in S. subst l.
      unfold reread_pieces in *. rewrite bracket_leaf in *. cbn [read_tree] in *. unfold piece_tree in *. cbn [pre base_tree bangs fold_right]. rewrite IH. reflexivity.
    - destruct F as [F N]. specialize (IH G F). destruct (suffixed x F N) as (t & v & k & S). unfold reread in *. cbn [reading]. rewrite S in *.
      unfold reread_pieces in *. cbn [last_bangs]. rewrite bracket_leaf in *. cbn [read_tree] in *. unfold piece_tree in *. cbn [pre base_tree bangs fold_right] in *.
      destruct (bang_even k v) as [B1 B2]. destruct d; [rewrite B2|rewrite B1]; rewrite IH; reflexivity.
    - destruct G as (Hs & Gx & Gy), F as (Fx & Fy & Lx & Ly). specialize (IHx Gx Fx). specialize (IHy Gy Fy). unfold reread. cbn [reading].
      pose proof (operand_root s x) as Rx. pose proof (operand_root s y) as Ry. pose proof (operand_reread s x (reading x)) as Ex. pose proof (operand_reread s y (reading y)) as Ey.
      destruct (operand s x (reading x)) as [p l]. destruct (operand s y (reading y)) as [q m]. unfold reread_pieces. rewrite join_bracket.
      + cbn [read_tree]. unfold reread_pieces in Ex, Ey. rewrite Ex, Ey. unfold reread, reread_pieces in IHx, IHy. rewrite IHx, IHy. reflexivity.
      + intros o E. destruct (Rx o Gx IHx E) as (s' & u & v & -> & -> & P). cbn [fits_left item_strength] in *. destruct Lx as [L|[L|[L N]]]; [lia|left; exact L|right].
        split; [exact L|]. destruct (str_eqb s (lit "^")) eqn:Q; [apply str_eqb_eq in Q; contradiction|reflexivity].
      + intros o E. destruct (Ry o Gy IHy E) as (s' & u & v & -> & -> & P). cbn [fits_right item_strength] in *. destruct Ly as [L|[L|[L N]]]; [lia|left; exact L|right].
        split; [exact L|]. apply str_eqb_eq. exact N.
  Qed.

  (** ** and only they *)
  Fixpoint weight (t : otree) : nat :=
    match t with
    | OInt n => if n <? 0 then 2 else 1
    | OBool _ | OName _ _ => 1
    | OPre _ x => S (weight x)
    | OSuf d x => (if d then 2 else 1) + weight x
    | OBin _ x y => S (weight x + weight y)
    end.
  Lemma weight_pos : forall t, (0 < weight t)%nat.
  Proof. induction t; cbn [weight]; try lia. destruct (n <? 0); lia. Qed.
  Definition item_weight (i : item) : nat := match i with Op _ => 1 | Pc p => weight (piece_tree p) end.
  Definition total (l : list item) : nat := list_sum (map item_weight l).
  Lemma total_app : forall a b, total (a ++ b) = (total a + total b)%nat.
  Proof. intros a b. unfold total. rewrite map_app. apply list_sum_app. Qed.
  Lemma total_cons : forall i l, total (i :: l) = (item_weight i + total l)%nat.
  Proof. reflexivity. Qed.
  Lemma read_weight : forall b, shaped b -> weight (read_tree b) = total (written b).
  Proof.
    induction b as [x|l IHl o r IHr]; intros S; [destruct x; [cbn; unfold total; cbn; lia|destruct S]|]. destruct o as [p|s]; [destruct S|]. destruct S as (Sl & _ & Sr).
    cbn [read_tree weight written]. rewrite total_app, total_cons, <- (IHl Sl), <- (IHr Sr). cbn [item_weight]. lia.
  Qed.
  Lemma bang_weight : forall k t, weight (bang_tree k t) = (k + weight t)%nat.
  Proof. induction k as [| |k IH] using nat_pair_ind; intros t; [reflexivity|reflexivity|]. rewrite bang_tree_plus, IH. cbn [weight]. lia. Qed.
  Lemma piece_weight : forall p, weight (piece_tree p) = (length (pre p) + bangs p + weight (base_tree p))%nat.
  Proof.
    intros p. unfold piece_tree. induction (pre p) as [|c cs IH]; cbn [fold_right weight length]; [rewrite bang_weight; reflexivity|]. rewrite IH. reflexivity.
  Qed.
  Lemma items_cons : forall s q l, items ((s, q) :: l) = Op s :: Pc q :: items l.
  Proof. reflexivity. Qed.
  Lemma items_nil : items [] = [].
  Proof. reflexivity. Qed.
  Lemma total_nil : total [] = 0%nat.
  Proof. reflexivity. Qed.
  Definition pieces_weight (r : pieces) : nat := total (Pc (fst r) :: items (snd r)).
  Lemma last_bangs_weight : forall k l p, pieces_weight (last_bangs k p l) = (pieces_weight (p, l) + k)%nat.
  Proof.
    unfold pieces_weight. induction l as [|[s q] l IH]; intros p; cbn [last_bangs fst snd].
    - rewrite items_nil, !total_cons, total_nil. cbn [item_weight]. rewrite !piece_weight. cbn [pre bangs base_tree]. lia.
    - specialize (IH q). cbn [fst snd] in IH. rewrite !items_cons, !total_cons in *. cbn [item_weight] in *. lia.
  Qed.
  Lemma reread_weight : forall r, Forall (fun e => In (fst e) infix_signs) (snd r) -> weight (reread_pieces r) = pieces_weight r.
  Proof. intros r H. unfold reread_pieces, pieces_weight. rewrite read_weight by (apply bracket_shaped; exact H). rewrite bracket_written. reflexivity. Qed.
  Lemma operand_weight : forall s x r, Forall (fun e => In (fst e) infix_signs) (snd r) -> pieces_weight (operand s x r) = pieces_weight r.
  Proof.
    intros s x r H. unfold operand. destruct (printed_of x <? printed s); [|reflexivity]. unfold pieces_weight at 1. cbn [fst snd items flat_map]. unfold total. cbn [map list_sum fold_right item_weight].
    rewrite piece_weight. cbn [pre bangs base_tree length]. rewrite reread_weight by exact H. unfold pieces_weight, total. lia.
  Qed.
  Lemma reading_weight : forall t, good_tree U t -> pieces_weight (reading t) = weight t.
  Proof.
    induction t as [n|b|w l|c x IH|d x IH|s x IHx y IHy]; intros G; cbn [reading].
    - cbn [weight]. destruct (Z.ltb_spec n 0) as [L|L]; unfold pieces_weight, total; cbn [fst snd items flat_map map item_weight list_sum fold_right]; rewrite piece_weight;
        cbn [pre bangs base_tree length weight]; [destruct (Z.ltb_spec (- n) 0); cbn; lia|destruct (Z.ltb_spec n 0); lia].
    - reflexivity.
    - reflexivity.
    - destruct G as [_ G]. specialize (IH G). destruct (reading x) as [p l]. unfold pieces_weight in *. cbn [fst snd] in *. rewrite total_cons in *. cbn [item_weight weight] in *.
      rewrite piece_weight in *. cbn [pre bangs base_tree length]. lia.
    - specialize (IH G). destruct (reading x) as [p l]. rewrite last_bangs_weight, IH. cbn [weight]. destruct d; lia.
    - destruct G as (Hs & Gx & Gy). specialize (IHx Gx). specialize (IHy Gy). pose proof (operand_weight s x _ (reading_signs x Gx)) as Wx. pose proof (operand_weight s y _ (reading_signs y Gy)) as Wy.
      destruct (operand s x (reading x)) as [p l]. destruct (operand s y (reading y)) as [q m]. unfold pieces_weight in *. cbn [fst snd weight] in *.
      rewrite items_app, items_cons, total_cons, total_app. rewrite !total_cons in *. cbn [item_weight] in *. lia.
  Qed.
  Lemma items_pos : forall i, (0 < item_weight i)%nat.
  Proof. intros [p|s]; cbn; [apply weight_pos|lia]. Qed.
  Lemma same_split : forall a b c d : list item, a ++ c = b ++ d -> total a = total b -> a = b.
  Proof.
    induction a as [|i a IH]; intros [|j b] c d H T; [reflexivity| | |].
    - rewrite total_cons in T. pose proof (items_pos j). unfold total in T at 1. cbn in T. lia.
    - rewrite total_cons in T. pose proof (items_pos i). unfold total in T at 2. cbn in T. lia.
    - cbn [app] in H. injection H as -> H. f_equal. rewrite !total_cons in T. apply (IH b c d H). lia.
  Qed.
  Lemma infix_many : forall s x y, snd (reading (OBin s x y)) <> [].
  Proof.
    intros s x y. cbn [reading]. destruct (operand s x (reading x)) as [p l]. destruct (operand s y (reading y)) as [q m]. cbn [snd]. intros E. apply app_eq_nil in E as [_ E]. discriminate.
  Qed.
  Lemma read_leaf : forall r, Forall (fun e => In (fst e) infix_signs) (snd r) -> no_infix (reread_pieces r) -> snd r = [].
  Proof.
    intros [p l] H N. cbn [snd] in *. destruct (root_op (bracket (p, l))) as [o|] eqn:E.
    - apply root_read in E as (s & x & y & _ & E); [|exact H]. rewrite E in N. destruct N.
    - pose proof (bracket_written (p, l)) as W. destruct (bracket (p, l)); [|discriminate]. cbn [written fst snd] in W. injection W as _ W. destruct l; [reflexivity|discriminate].
  Qed.
  Definition base_ok (t : otree) : Prop := match t with OPre _ _ | OSuf _ _ => False | _ => True end.
  Lemma bang_out : forall k t d x, base_ok t -> bang_tree k t = OSuf d x -> exists j, k = ((if d then 2 else 1) + 2 * j)%nat /\ x = bang_tree (2 * j) t.
  Proof.
    assert (X : forall k, exists j, k = (2 * j)%nat \/ k = (2 * j + 1)%nat) by (intros k; destruct (Nat.Even_or_Odd k) as [[j E]|[j E]]; exists j; lia).
    intros k t d x B H. destruct (X k) as [j [->| ->]].
    - destruct j as [|j]; [destruct t; try discriminate; destruct B|]. replace (2 * S j)%nat with (2 * j + 2)%nat in * by lia. rewrite (proj2 (bang_even j t)) in H.
      injection H as <- <-. exists j. split; [lia|reflexivity].
    - rewrite (proj1 (bang_even j t)) in H. injection H as <- <-. exists j. split; [lia|reflexivity].
  Qed.
  Lemma base_reading : forall t, good_tree U t -> base_ok (base_tree (fst (reading t))) /\ Forall (fun e => base_ok (base_tree (snd e))) (snd (reading t)).
  Proof.
    assert (B : forall k l p, base_ok (base_tree p) -> Forall (fun e : str * piece => base_ok (base_tree (snd e))) l ->
      base_ok (base_tree (fst (last_bangs k p l))) /\ Forall (fun e => base_ok (base_tree (snd e))) (snd (last_bangs k p l))).
    { induction l as [|[s q] l IH]; intros p Hp H; [split; [exact Hp|constructor]|]. cbn [last_bangs fst snd]. inversion H; subst. destruct (IH q) as [A C]; [assumption|assumption|].
      split; [exact Hp|]. constructor; assumption. }
    induction t as [n|b|w l|c x IH|d x IH|s x IHx y IHy]; intros G; cbn [reading].
    - destruct (n <? 0); split; try constructor; exact Logic.I.
    - split; [exact Logic.I|constructor].
    - split; [exact Logic.I|constructor].
    - destruct G as [_ G]. specialize (IH G). destruct (reading x). exact IH.
    - specialize (IH G). destruct (reading x) as [p l]. apply B; apply IH.
    - destruct G as (Hs & Gx & Gy).
      assert (O : forall x, good_tree U x -> base_ok (base_tree (fst (reading x))) /\ Forall (fun e => base_ok (base_tree (snd e))) (snd (reading x)) ->
        base_ok (base_tree (fst (operand s x (reading x)))) /\ Forall (fun e => base_ok (base_tree (snd e))) (snd (operand s x (reading x)))).
      { clear -Hs. intros x G H. unfold operand. destruct (Z.ltb_spec (printed_of x) (printed s)) as [L|L]; [|exact H]. split; [|constructor]. cbn [fst base_tree].
        assert (P : printed s < 255) by (unfold printed; destruct (infix_known s Hs) as (_ & _ & q & n & p & -> & Hp); apply Hp).
        destruct (reread_pieces (reading x)) eqn:E; try exact Logic.I; exfalso.
        - assert (R : snd (reading x) = []) by (apply read_leaf; [apply reading_signs; exact G|rewrite E; exact Logic.I]).
          destruct x as [n|b|w l|c' y|d y|s' y z]; cbn [printed_of] in L; try lia. exact (infix_many s' y z R).
        - assert (R : snd (reading x) = []) by (apply read_leaf; [apply reading_signs; exact G|rewrite E; exact Logic.I]).
          destruct x as [n|b|w l|c' y|d' y|s' y z]; cbn [printed_of] in L; try lia. exact (infix_many s' y z R). }
      pose proof (O x Gx (IHx Gx)) as Ox. pose proof (O y Gy (IHy Gy)) as Oy.
      destruct (operand s x (reading x)) as [p l]. destruct (operand s y (reading y)) as [q m]. cbn [fst snd] in *. split; [apply Ox|]. apply Forall_app. split; [apply Ox|constructor; apply Oy].
  Qed.
  Lemma reread_faithful : forall t, good_tree U t -> reread t = t -> faithful t.
  Proof.
    induction t as [n|b|w l|c x IH|d x IH|s x IHx y IHy]; intros G R; cbn [faithful]; try exact Logic.I.
    - unfold reread in R. cbn [reading] in R. destruct (Z.ltb_spec n 0) as [L|L]; [discriminate|exact L].
    - assert (S : snd (reading (OPre c x)) = []) by (apply read_leaf; [apply reading_signs; exact G|unfold reread in R; rewrite R; exact Logic.I]).
      destruct G as [_ G]. unfold reread in *. cbn [reading] in *. destruct (reading x) as [p l] eqn:E. cbn [snd] in S. subst l.
      unfold reread_pieces in *. rewrite bracket_leaf in *. cbn [read_tree] in *. unfold piece_tree in *. cbn [pre base_tree bangs fold_right] in R. injection R as R.
      split; [apply (IH G); exact R|]. destruct x as [n|b|w l|c' x|d x|s x y]; try exact Logic.I. apply (infix_many s x y). rewrite E. reflexivity.
    - assert (S : snd (reading (OSuf d x)) = []) by (apply read_leaf; [apply reading_signs; exact G|unfold reread in R; rewrite R; exact Logic.I]).
      pose proof (base_reading x G) as [B _]. unfold reread in *. cbn [reading] in *. destruct (reading x) as [p l] eqn:E. destruct l as [|[s q] l]; [|discriminate].
      cbn [last_bangs fst] in *. unfold reread_pieces in *. rewrite bracket_leaf in *. cbn [read_tree] in *. unfold piece_tree in *. cbn [pre base_tree bangs] in R.
      destruct (pre p) as [|c cs]; [|discriminate]. cbn [fold_right] in *. apply bang_out in R as (j & K & X); [|exact B].
      assert (K' : bangs p = (2 * j)%nat) by (destruct d; lia). rewrite K', <- X in IH. split; [apply (IH G); reflexivity|].
      destruct j as [|j].
      + cbn [bang_tree Nat.mul Nat.add] in X. subst x. destruct (base_tree p) as [n|b|w l|c x|d' x|s x y]; try exact Logic.I; [destruct B|destruct B|]. apply (infix_many s x y). rewrite E. reflexivity.
      + replace (2 * Datatypes.S j)%nat with (2 * j + 2)%nat in X by lia. rewrite (proj2 (bang_even j _)) in X. subst x. exact Logic.I.
    - destruct G as (Hs & Gx & Gy). specialize (IHx Gx). specialize (IHy Gy). 
      pose proof (reading_weight x Gx) as Wx. pose proof (reading_weight y Gy) as Wy. pose proof (reading_signs x Gx) as Sx. pose proof (reading_signs y Gy) as Sy.
      rewrite <- (operand_weight s x _ Sx) in Wx. rewrite <- (operand_weight s y _ Sy) in Wy.
      pose proof (operand_reread s x (reading x)) as Ex. pose proof (operand_reread s y (reading y)) as Ey.
      pose proof (operand_signs s x _ Sx) as Tx. pose proof (operand_signs s y _ Sy) as Ty.
      assert (Ox : operand s x (reading x) = reading x \/ printed_of x < printed s) by (unfold operand; destruct (Z.ltb_spec (printed_of x) (printed s)); auto).
      assert (Oy : operand s y (reading y) = reading y \/ printed_of y < printed s) by (unfold operand; destruct (Z.ltb_spec (printed_of y) (printed s)); auto).
      unfold reread in R. cbn [reading] in R. destruct (operand s x (reading x)) as [p l]. destruct (operand s y (reading y)) as [q m].
      pose proof (bracket_shaped (p, l ++ (s, q) :: m)) as SH. pose proof (bracket_good (p, l ++ (s, q) :: m)) as GD. pose proof (bracket_written (p, l ++ (s, q) :: m)) as WR.
      assert (SH' : shaped (bracket (p, l ++ (s, q) :: m))) by (apply SH; cbn [snd]; apply Forall_app; split; [exact Tx|constructor; [exact Hs|exact Ty]]). clear SH.
      unfold reread_pieces in R. destruct (bracket (p, l ++ (s, q) :: m)) as [i|b1 o b2].
      { exfalso. cbn [written fst snd] in WR. injection WR as _ WR. symmetry in WR. rewrite items_app in WR. apply app_eq_nil in WR as [_ WR]. discriminate. }
      destruct o as [p'|s']; [destruct SH'|]. destruct SH' as (S1 & _ & S2). cbn [read_tree] in R. injection R as -> R1 R2.
      inversion GD as [|l' o' r' G1 G2 C1 C2]; subst l' o' r'. cbn [written fst snd] in WR. rewrite items_app in WR. change (items ((s, q) :: m)) with (Op s :: Pc q :: items m) in WR.
      change (written b1 ++ Op s :: written b2 = (Pc p :: items l) ++ Op s :: Pc q :: items m) in WR.
      assert (P1 : written b1 = Pc p :: items l).
      { eapply same_split; [exact WR|]. rewrite <- read_weight by exact S1. rewrite R1. symmetry. exact Wx. }
      rewrite P1 in WR. apply app_inv_head in WR. injection WR as P2.
      assert (B1 : b1 = bracket (p, l)) by (apply good_unique; [exact G1|apply bracket_good|rewrite bracket_written; exact P1]).
      assert (B2 : b2 = bracket (q, m)) by (apply good_unique; [exact G2|apply bracket_good|rewrite bracket_written; exact P2]).
      assert (Rx : reread x = x) by (unfold reread; rewrite <- Ex; unfold reread_pieces; rewrite <- B1; exact R1).
      assert (Ry : reread y = y) by (unfold reread; rewrite <- Ey; unfold reread_pieces; rewrite <- B2; exact R2).
      split; [exact (IHx Rx)|]. split; [exact (IHy Ry)|]. split.
      + destruct x as [n|b|w l0|c' x|d x|s' u v]; try exact Logic.I. cbn [fits_left]. destruct Ox as [Ox|Ox]; [|left; exact Ox]. right.
        destruct b1 as [i|b1 o b1']; [exfalso; apply (infix_many s' u v); rewrite <- Ox; cbn [snd]; cbn [written] in P1; injection P1 as _ P1; destruct l as [|[? ?] l]; [reflexivity|discriminate]|].
        destruct o as [p'|s'']; [destruct S1|]. cbn [read_tree] in R1. injection R1 as -> _ _. destruct (C1 _ eq_refl) as [C|[C N]]; cbn [item_strength item_right] in *; [left; exact C|right].
        split; [exact C|]. intros ->. discriminate.
      + destruct y as [n|b|w l0|c' y|d y|s' u v]; try exact Logic.I. cbn [fits_right]. destruct Oy as [Oy|Oy]; [|left; exact Oy]. right.
        destruct b2 as [i|b2 o b2']; [exfalso; apply (infix_many s' u v); rewrite <- Oy; cbn [snd]; cbn [written] in P2; injection P2 as _ P2; destruct m as [|[? ?] m]; [reflexivity|discriminate]|].
        destruct o as [p'|s'']; [destruct S2|]. cbn [read_tree] in R2. injection R2 as -> _ _. destruct (C2 _ eq_refl) as [C|[C N]]; cbn [item_strength item_right] in *; [left; exact C|right].
        split; [exact C|]. apply str_eqb_eq. exact N.
  Qed.
End Faithful.

(** ** Trees *)
Lemma named_full : forall w l w' l', named w l = named w' l' -> w = w' /\ l = l'.
Proof.
  intros w l w' l' H. unfold named in H. injection H as H1 H2.
  assert (E : w :: l = w' :: l').
  { rewrite (app_removelast_last ([] : str) (l := w :: l)) by discriminate. rewrite (app_removelast_last ([] : str) (l := w' :: l')) by discriminate.
    apply (f_equal2 (fun a b => a ++ [b])); assumption. }
  injection E as -> ->. auto.
Qed.
Lemma ast_of_inj : forall U t t', good_tree U t -> ast_of t = ast_of t' -> t = t'.
Proof.
  intros U. assert (I : forall s x y, infix_call s x y = EmptyStatement \/ exists n p, infix_call s x y = binary n s p [x; y]).
  { intros s x y. unfold infix_call. destruct (lookup s operators) as [[[q n] p]|]; [right; eauto|left; reflexivity]. }
  induction t as [n|b|w l|c x IH|d x IH|s x IHx y IHy]; intros t' G E; cbn [ast_of] in E.
  - destruct t' as [n'|b'|w' l'|c' x'|d' x'|s' x' y']; cbn [ast_of] in E; try discriminate; [congruence|destruct d'; discriminate|destruct (I s' (ast_of x') (ast_of y')) as [E'|(? & ? & E')]; rewrite E' in E; discriminate].
  - destruct t' as [n'|b'|w' l'|c' x'|d' x'|s' x' y']; cbn [ast_of] in E; try discriminate; [congruence|destruct d'; discriminate|destruct (I s' (ast_of x') (ast_of y')) as [E'|(? & ? & E')]; rewrite E' in E; discriminate].
  - destruct t' as [n'|b'|w' l'|c' x'|d' x'|s' x' y']; cbn [ast_of] in E; try discriminate; [|destruct d'; discriminate|destruct (I s' (ast_of x') (ast_of y')) as [E'|(? & ? & E')]; rewrite E' in E; discriminate].
    assert (E' : named w l = named w' l') by congruence. apply named_full in E' as [-> ->]. reflexivity.
  - destruct G as [_ G]. destruct t' as [n'|b'|w' l'|c' x'|d' x'|s' x' y']; cbn [ast_of] in E; try discriminate; [|destruct d'; discriminate|destruct (I s' (ast_of x') (ast_of y')) as [E'|(? & ? & E')]; rewrite E' in E; discriminate].
    unfold prefix_call, call in E. injection E as _ -> E. rewrite (IH x' G E). reflexivity.
  - destruct t' as [n'|b'|w' l'|c' x'|d' x'|s' x' y']; cbn [ast_of] in E; try (destruct d; discriminate); [|destruct (I s' (ast_of x') (ast_of y')) as [E'|(? & ? & E')]; rewrite E' in E; destruct d; discriminate].
    destruct d, d'; try discriminate; unfold suffix_call, call in E; injection E as E; rewrite (IH x' G E); reflexivity.
  - destruct G as (Hs & Gx & Gy). unfold infix_call at 1 in E. destruct (infix_known s Hs) as (_ & _ & q & n & p & L & _). rewrite L in E.
    destruct t' as [n'|b'|w' l'|c' x'|d' x'|s' x' y']; cbn [ast_of] in E; try discriminate; [destruct d'; discriminate|].
    destruct (I s' (ast_of x') (ast_of y')) as [E'|(n' & p' & E')]; rewrite E' in E; [discriminate|]. unfold binary, call in E. injection E as _ -> _ E1 E2.
    rewrite (IHx x' Gx E1), (IHy y' Gy E2). reflexivity.
Qed.
Lemma forget_ast_of : forall t, forget_positions (ast_of t) = ast_of t.
Proof.
  induction t as [n|b|w l|c x IH|d x IH|s x IHx y IHy]; cbn [ast_of]; try reflexivity.
  - unfold prefix_call, call. cbn [forget_positions map arguments options]. rewrite IH. reflexivity.
  - destruct d; unfold suffix_call, call; cbn [forget_positions map arguments options]; rewrite IH; reflexivity.
  - unfold infix_call. destruct (lookup s operators) as [[[q n] p]|]; [|reflexivity]. unfold binary, call. cbn [forget_positions map arguments options]. rewrite IHx, IHy. reflexivity.
Qed.

Theorem round_trip : forall U, sane U -> forall t, good_tree U t ->
  exists text, display (ast_of t) = Ret text /\ (exists t', denotes U text (Ret (ast_of t'))) /\ (denotes U text (Ret (ast_of t)) <-> faithful t).
Proof.
  intros U HU t G. exists (all_text (reading t)). split; [apply (reading_text U t G)|]. pose proof (round_text U HU t G) as H. split; [eauto|]. split.
  - intros D. apply (reread_faithful U t G). symmetry. apply (ast_of_inj U); [exact G|]. specialize (H []). specialize (D []). rewrite D in H. cbn [omap] in H. injection H as H.
    rewrite !forget_ast_of in H. exact H.
  - intros F. rewrite (faithful_reread U t G F) in H. exact H.
Qed.
Lemma precedence_forget : forall a, precedence (forget_positions a) = precedence a.
Proof. intros []; reflexivity. Qed.
Theorem display_positions : forall a, display (forget_positions a) = display a.
Proof.
  apply (ast_ind' (fun a => display (forget_positions a) = display a)); try reflexivity.
  intros s ps H. cbn [forget_positions].
  assert (U1 : forall p, param_is_unary (mkParam (map forget_positions (arguments p)) (map (fun e => (forget_positions (fst e), forget_positions (snd e))) (options p)) default_position) = param_is_unary p)
    by (intros p; unfold param_is_unary; cbn [arguments options]; rewrite !map_length; reflexivity).
  assert (U2 : forall p, param_is_multiary (mkParam (map forget_positions (arguments p)) (map (fun e => (forget_positions (fst e), forget_positions (snd e))) (options p)) default_position) = param_is_multiary p)
    by (intros p; unfold param_is_multiary; cbn [arguments options]; rewrite !map_length; reflexivity).
  cbn [display]. destruct (kind s); try reflexivity; destruct ps as [|pm [|pm2 ps]]; try reflexivity; cbn [map is_unary is_multiary]; rewrite ?U1, ?U2;
    inversion H as [|x l HA _]; subst; destruct HA as [HA _]; cbn [arguments].
  - destruct (param_is_unary pm); [|reflexivity]. destruct HA as [|x l Hx _]; [reflexivity|]. cbn [map]. rewrite Hx. reflexivity.
  - destruct (param_is_multiary pm); [|reflexivity]. f_equal. induction HA as [|x l Hx _ IH]; [reflexivity|]. cbn [map omapM]. unfold wrap_operand in *. rewrite Hx, precedence_forget, IH. reflexivity.
  - destruct (param_is_unary pm); [|reflexivity]. destruct HA as [|x l Hx _]; [reflexivity|]. cbn [map]. rewrite Hx. reflexivity.
Qed.
(** for trees with any positions *)
Theorem round_trip_any : forall U, sane U -> forall t a, good_tree U t -> forget_positions a = ast_of t ->
  exists text, display a = Ret text /\ (exists t', denotes U text (Ret (ast_of t'))) /\ (denotes U text (Ret a) <-> faithful t).
Proof.
  intros U HU t a G E. destruct (round_trip U HU t G) as (text & H1 & H2 & H3). exists text. split; [rewrite <- (display_positions a), E; exact H1|]. split; [exact H2|].
  assert (X : omap (fun a => @Ok ast sm_error (forget_positions a)) (Ret a) = omap (fun a => Ok (forget_positions a)) (Ret (ast_of t)))
    by (unfold omap; cbn [obind]; rewrite forget_ast_of, <- E; reflexivity).
  rewrite <- H3. unfold denotes. split; intros D f; specialize (D f).
  - etransitivity; [exact D|exact X].
  - etransitivity; [exact D|symmetry; exact X].
Qed.

(** ** What is read instead *)
Lemma unfaithful : forall U, sane U -> forall t, good_tree U t -> ~ faithful t ->
  exists text t', display (ast_of t) = Ret text /\ denotes U text (Ret (ast_of t')) /\ ast_of t' <> ast_of t.
Proof.
  intros U HU t G N. exists (all_text (reading t)), (reread t). split; [apply (reading_text U t G)|]. split; [apply (round_text U HU t G)|].
  intros E. apply N. apply (reread_faithful U t G). symmetry. apply (ast_of_inj U); [exact G|]. symmetry. exact E.
Qed.
Lemma atom_good : forall U t, atom U t -> good_tree U t.
Proof. intros U [] H; try exact Logic.I; try exact H; destruct H. Qed.
Lemma atom_reading : forall U t, atom U t -> exists x, reading t = (mkPiece [] x t 0, []) /\ printed_of t = 255.
Proof.
  intros U [n|b|w l|c x|d x|s x y] H; try (destruct H; fail); cbn [reading atom] in *; [|eexists; split; reflexivity|eexists; split; reflexivity].
  destruct (Z.ltb_spec n 0) as [L|L]; [lia|]. eexists. split; reflexivity.
Qed.
Lemma misread_texts : forall U, sane U -> forall a b c t t', atom U a -> atom U b -> atom U c -> In (t, t') (misread a b c) ->
  exists text, display (ast_of t) = Ret text /\ denotes U text (Ret (ast_of t')) /\ ast_of t' <> ast_of t.
Proof.
  intros U HU a b c t t' Ha Hb Hc I.
  pose proof (atom_good U a Ha) as Ga. pose proof (atom_good U b Hb) as Gb. pose proof (atom_good U c Hc) as Gc.
  assert (X : good_tree U t).
  { repeat (destruct I as [E|I]; [injection E as <- _; cbn [good_tree]; repeat split; auto; cbn; tauto|]). destruct I. }
  assert (Y : reread t = t').
  { clear X. destruct (atom_reading U a Ha) as (x & Ra & Pa). destruct (atom_reading U b Hb) as (y & Rb & Pb). destruct (atom_reading U c Hc) as (z & Rc & Pc).
    repeat (destruct I as [E|I]; [injection E as <- <-; unfold reread; cbn [reading]; rewrite ?Ra, ?Rb, ?Rc; unfold operand; cbn [printed_of]; rewrite ?Pa, ?Pb, ?Pc; reflexivity|]). destruct I. }
  assert (Z : ~ faithful t).
  { clear - I. repeat (destruct I as [E|I]; [injection E as <- _; cbn [faithful fits_left fits_right no_infix takes_suffix]; unfold printed, strength; cbn [lookup operators];
      cbn - [Z.lt Z.gt]; intuition (try lia; try discriminate; congruence)|]). destruct I. }
  exists (all_text (reading t)). subst t'. split; [apply (reading_text U t X)|]. split; [apply (round_text U HU t X)|].
  intros E. apply Z. apply (reread_faithful U t X). symmetry. apply (ast_of_inj U); [exact X|]. symmetry. exact E.
Qed.
(** products of three or more factors are printed like nested ones *)
Lemma atom_precedence : forall U t, atom U t -> precedence (ast_of t) = 255.
Proof. intros U [n|b|w l|c x|d x|s x y] H; try (destruct H; fail); reflexivity. Qed.
Lemma join_last : forall s l x, l <> [] -> join s (l ++ [x]) = join s l ++ s ++ x.
Proof.
  intros s. induction l as [|y l IH]; intros x H; [contradiction|]. destruct l as [|z l]; [reflexivity|]. specialize (IH x ltac:(discriminate)).
  change (join s ((y :: z :: l) ++ [x])) with (y ++ s ++ join s ((z :: l) ++ [x])). rewrite IH. change (join s (y :: z :: l)) with (y ++ s ++ join s (z :: l)). rewrite <- !app_assoc. reflexivity.
Qed.
Lemma nested_text : forall U ts a, atom U a -> Forall (atom U) ts ->
  let t := fold_left (OBin (lit "*")) ts a in
  good_tree U t /\ faithful t /\ (140 <=? precedence (ast_of t)) = true /\ display (ast_of t) = Ret (join (lit "*") (map (fun x => all_text (reading x)) (a :: ts))).
Proof.
  intros U ts. induction ts as [|x ts IH] using rev_ind; intros a Ha Hts; cbv zeta.
  - cbn [fold_left]. split; [apply atom_good; exact Ha|]. split; [destruct a; try (destruct Ha; fail); try exact Logic.I; exact Ha|]. split; [rewrite (atom_precedence U a Ha); reflexivity|].
    cbn [map join]. apply (reading_text U a (atom_good U a Ha)).
  - apply Forall_app in Hts as [Hts Hx]. inversion Hx as [|x' l' Hx' _]; subst. clear Hx. specialize (IH a Ha Hts). cbv zeta in IH. rewrite fold_left_app. cbn [fold_left].
    destruct IH as (G & F & P & D). pose proof (atom_good U x Hx') as Gx. pose proof (atom_precedence U x Hx') as Px. pose proof (reading_text U x Gx) as Dx.
    set (t := fold_left (OBin (lit "*")) ts a) in *. assert (T : t = a \/ exists y z, t = OBin (lit "*") y z).
    { unfold t. clear. destruct ts as [|y ts] using rev_ind; [left; reflexivity|]. rewrite fold_left_app. cbn [fold_left]. right; eauto. }
    split; [|split; [|split]].
    + cbn [good_tree]. split; [right; right; left; reflexivity|]. split; assumption.
    + cbn [faithful]. split; [exact F|]. split; [destruct x; try (destruct Hx'; fail); try exact Logic.I; exact Hx'|]. split; [|destruct x; try (destruct Hx'; fail); exact Logic.I].
      destruct T as [->|(y & z & ->)]; [destruct a; try (destruct Ha; fail); exact Logic.I|]. cbn [fits_left]. right. right. split; [reflexivity|discriminate].
    + reflexivity.
    + change (ast_of (OBin (lit "*") t x)) with (times [ast_of t; ast_of x]). cbn [times binary call display kind is_multiary param_is_multiary arguments options length omapM]. cbn [Nat.ltb Nat.leb Nat.eqb andb].
      rewrite D. cbn [obind]. rewrite Dx. cbn [obind]. unfold wrap_operand. apply Z.leb_le in P. destruct (Z.ltb_spec (precedence (ast_of t)) 140) as [L|_]; [lia|]. rewrite Px.
      cbn [Z.ltb Z.compare]. change (map (fun x => all_text (reading x)) (a :: ts ++ [x])) with (map (fun x => all_text (reading x)) ((a :: ts) ++ [x])).
      rewrite map_app. cbn [map]. rewrite (join_last _ (_ :: _)) by discriminate. reflexivity.
Qed.
Lemma display_times : forall l, (1 < length l)%nat -> display (times l) = (v <- omapM (fun x => t <- display x; Ret (wrap_operand x 140 t)) l; Ret (join (lit "*") v)).
Proof.
  intros l H. unfold times, binary, call. cbn [display kind is_multiary]. unfold param_is_multiary. cbn [arguments options]. replace (Nat.ltb 1 (length l)) with true by (symmetry; apply Nat.ltb_lt; exact H). reflexivity.
Qed.
Lemma product_text : forall U, sane U -> forall a b ts, atom U a -> atom U b -> Forall (atom U) ts -> ts <> [] ->
  exists text, display (times (map ast_of (a :: b :: ts))) = Ret text /\
    denotes U text (Ret (ast_of (fold_left (OBin (lit "*")) (b :: ts) a))) /\ ast_of (fold_left (OBin (lit "*")) (b :: ts) a) <> times (map ast_of (a :: b :: ts)).
Proof.
  intros U HU a b ts Ha Hb Hts N. assert (Hbt : Forall (atom U) (b :: ts)) by (constructor; assumption). destruct (nested_text U (b :: ts) a Ha Hbt) as (G & F & P & D).
  exists (join (lit "*") (map (fun x => all_text (reading x)) (a :: b :: ts))).
  split; [|split].
  - rewrite display_times by (cbn [map length]; lia).
    assert (M : omapM (fun x => t <- display x; Ret (wrap_operand x 140 t)) (map ast_of (a :: b :: ts)) = Ret (map (fun x => all_text (reading x)) (a :: b :: ts))).
    { assert (H : Forall (atom U) (a :: b :: ts)) by (constructor; assumption). clear - H HU. induction H as [|x l Hx _ IH]; [reflexivity|]. cbn [map omapM].
      rewrite (reading_text U x (atom_good U x Hx)). cbn [obind]. rewrite IH. unfold wrap_operand. rewrite (atom_precedence U x Hx). reflexivity. }
    rewrite M. reflexivity.
  - destruct (round_trip U HU _ G) as (text & D' & _ & E). rewrite D in D'. injection D' as <-. apply E. exact F.
  - destruct ts as [|c ts] using rev_ind; [contradiction|]. clear. change (b :: ts ++ [c]) with ((b :: ts) ++ [c]). rewrite fold_left_app. cbn [fold_left ast_of]. unfold infix_call. cbn [lookup operators]. intros E.
    cbn [str_eqb] in E. unfold times, binary, call in E. injection E as E1 E2. destruct ts; discriminate.
Qed.
