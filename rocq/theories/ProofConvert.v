(** Converting a file, as a whole. *)
From Verif Require Import Base Ast SmError Peg Grammar Build Wolfram ParseFile SpecAst SpecSyntax SpecPieces SpecSession SpecExport SpecConvert.
From Verif Require Import ProofPos ProofPieces ProofExport ProofInject ProofSample.

Lemma same_pieces_named : forall U, sane U -> forall f f' text text', pieces text = pieces text' -> omap forget_result (parse U f text) = omap forget_result (parse U f' text').
Proof.
  intros U HU f f' text text' P. rewrite (same_pieces U HU f text text' P). unfold parse. destruct (run_program U text') as [s t|s t| |]; try reflexivity.
  pose proof (parse_pairs_sim f text' f' text' t t (same_list _ _ eq_refl)) as HP.
  destruct (parse_pairs f text' t) as [a|k|], (parse_pairs f' text' t) as [b|k'|]; cbn in HP; try contradiction; try reflexivity.
  - cbn. unfold sim in HP. rewrite HP. reflexivity.
  - cbn. subst k'. reflexivity.
Qed.
Lemma forget_same : forall a b, forget_positions a = forget_positions b -> same_shape a b.
Proof.
  induction a as [|l H|s ps H|c|n|d|s|s] using ProofAst.ast_ind'; intros b E; destruct b as [|m|t qs|c'|n'|d'|t|t]; try discriminate E; cbn [forget_positions] in E; try (injection E as <-; constructor; reflexivity).
  - constructor.
  - injection E as E. constructor. revert m E. induction H as [|a l Ha H IH]; intros [|b m] E; try discriminate; constructor; injection E as E1 E2; auto.
  - injection E as <- E. constructor; [reflexivity|]. revert qs E. induction H as [|p ps [Ha Ho] H IH]; intros [|q qs] E; try discriminate; constructor; [|injection E as _ _ E; auto]. injection E as E1 E2 _. split.
    + revert E1. generalize (arguments q). clear - Ha. induction Ha as [|a l Ha H IH]; intros [|b m] E; try discriminate; constructor; injection E as E1 E2; auto.
    + revert E2. generalize (options q). clear - Ho. induction Ho as [|a l [H1 H2] H IH]; intros [|b m] E; try discriminate; constructor; injection E as E1 E2 E3; auto.
Qed.
Section Convert.
  Variable E : surroundings.
  Notation U := (tables E).
  Notation bytes := (to_wolfram_bytes (capital E) (encoded E)).
  Lemma converts_iff : forall n from to f, (exists g, converts E n from to f g) <-> exists text a, source_text E f from text /\ parse U n text = Ret (Ok a).
  Proof.
    intros n from to f. split.
    - intros (g & H). destruct (pf_success _ _ _ _ _ _ _ H) as (a & (c & text & A & B & C) & _). exists text, a. split; [exists c; split; assumption|exact C].
    - intros (text & a & (c & A & B) & C). destruct (pf_prefix_reachable (decoded E) (parse U n) bytes from to f a (bytes a) []) as (g & R & _); [exists c, text; auto|rewrite app_nil_r; reflexivity|].
      exists g. eapply reach_step; [exact R|]. apply step_write_done.
  Qed.
  Lemma converted : forall n from to f g, converts E n from to f g -> exists text a, source_text E f from text /\ parse U n text = Ret (Ok a) /\ g to = Some (bytes a).
  Proof. intros n from to f g H. destruct (pf_success _ _ _ _ _ _ _ H) as (a & (c & text & A & B & C) & D). exists text, a. split; [exists c; split; assumption|auto]. Qed.
  Lemma text_once : forall f from s t, source_text E f from s -> source_text E f from t -> s = t.
  Proof. intros f from s t (c & A & B) (d & C & D). congruence. Qed.
  Lemma same_trees : sane U -> forall n n' s t a, pieces s = pieces t -> parse U n s = Ret (Ok a) -> exists b, parse U n' t = Ret (Ok b) /\ same_shape a b.
  Proof.
    intros HU n n' s t a P H. pose proof (same_pieces_named U HU n n' s t P) as X. rewrite H in X. destruct (parse U n' t) as [[b|e]|k|]; try discriminate X. exists b. split; [reflexivity|].
    apply forget_same. cbn in X. injection X as X. exact X.
  Qed.
  Theorem same_conversion : sane U -> forall n n' from from' to to' f f' s t, source_text E f from s -> source_text E f' from' t -> pieces s = pieces t ->
    ((exists g, converts E n from to f g) <-> (exists g, converts E n' from' to' f' g)) /\
    forall g g', converts E n from to f g -> converts E n' from' to' f' g' -> g to = g' to'.
  Proof.
    intros HU n n' from from' to to' f f' s t A B P. split.
    - rewrite !converts_iff. split; intros (x & a & X & Y).
      + rewrite <- (text_once _ _ _ _ A X) in Y. destruct (same_trees HU n n' s t a P Y) as (b & Z & _). exists t, b. auto.
      + rewrite <- (text_once _ _ _ _ B X) in Y. destruct (same_trees HU n' n t s a (eq_sym P) Y) as (b & Z & _). exists s, b. auto.
    - intros g g' H H'. destruct (converted _ _ _ _ _ H) as (x & a & X & Y & Z). destruct (converted _ _ _ _ _ H') as (x' & a' & X' & Y' & Z'). rewrite <- (text_once _ _ _ _ A X) in Y. rewrite <- (text_once _ _ _ _ B X') in Y'.
      destruct (same_trees HU n n' s t a P Y) as (b & V & S). rewrite Y' in V. injection V as <-. rewrite Z, Z'. unfold to_wolfram_bytes. rewrite (to_wolfram_shape (capital E) a a' S). reflexivity.
  Qed.
  Theorem telling_conversion : sane U -> (forall w w', encoded E w = encoded E w' -> w = w') ->
    forall n n' from from' to to' f f' g g' s t a b, converts E n from to f g -> converts E n' from' to' f' g' -> source_text E f from s -> source_text E f' from' t ->
      parse U n s = Ret (Ok a) -> parse U n' t = Ret (Ok b) -> calls_nothing_reserved (capital E) a -> calls_nothing_reserved (capital E) b ->
    (g to = g' to' <-> agree (capital E) a b).
  Proof.
    intros HU I n n' from from' to to' f f' g g' s t a b H H' S T A B C D. destruct (converted _ _ _ _ _ H) as (x & a1 & X & Y & Z). destruct (converted _ _ _ _ _ H') as (x' & b1 & X' & Y' & Z').
    rewrite <- (text_once _ _ _ _ S X), A in Y. rewrite <- (text_once _ _ _ _ T X'), B in Y'. injection Y as <-. injection Y' as <-. rewrite Z, Z', <- (texts_same U HU (capital E) n n' s t a b A B C D). unfold to_wolfram_bytes. split.
    - intros [= V]. apply I, V.
    - intros ->. reflexivity.
  Qed.
End Convert.
Lemma convert_sample : let crlf := lit "f(1,  /// two words" ++ [13; 10]%N ++ lit " x)" in let lf := lit "f(1, ///one" ++ [10%N] ++ lit "x)" in
  let f := update (update (fun _ => None) (lit "a") crlf) (lit "b") lf in
  forall cap encode, let E := mkSurroundings Some ascii_only cap encode in
  source_text E f (lit "a") crlf /\ source_text E f (lit "b") lf /\ pieces crlf = pieces lf /\ crlf <> lf /\ (exists g, converts E (lit "a") (lit "a") (lit "c") f g) /\ sane (tables E).
Proof.
  intros crlf lf f cap encode E. assert (A : source_text E f (lit "a") crlf) by (eexists; split; reflexivity). split; [exact A|]. split; [eexists; split; reflexivity|].
  split; [vm_compute; reflexivity|]. split; [vm_compute; discriminate|]. split; [|exact ascii_only_sane]. apply converts_iff. exists crlf. eexists. split; [exact A|]. vm_compute. reflexivity.
Qed.
