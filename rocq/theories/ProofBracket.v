(** The parser does not get past a closing bracket that closes nothing, and what it
    reads has its brackets matched. *)
From Verif Require Import Base Ast SmError Peg Grammar Build Track SpecSyntax SpecManual SpecPlace SpecFault SpecBracket.
From Verif Require SpecSource.
From Verif Require Import ProofAst ProofPeg ProofLex ProofGrammar ProofBuild ProofTrack ProofStranger ProofGroup ProofFault.
Local Open Scope nat_scope.

(** ** Brackets *)
Definition opens (c : char) : option char := if (c =? 40)%N then Some 41%N else if (c =? 91)%N then Some 93%N else if (c =? 123)%N then Some 125%N else None.
Definition closes (c : char) : bool := (c =? 41)%N || (c =? 93)%N || (c =? 125)%N.
(** the closing brackets due after w, when those of st were due before *)
Fixpoint walk (w : str) (st : str) : option str :=
  match w with
  | [] => Some st
  | c :: w' =>
      match opens c with
      | Some b => walk w' (b :: st)
      | None => if closes c then match st with b :: st' => if (c =? b)%N then walk w' st' else None | [] => None end else walk w' st
      end
  end.
Lemma walk_app : forall a b st, walk (a ++ b) st = match walk a st with Some st' => walk b st' | None => None end.
Proof.
  induction a as [|c a IH]; intros b st; [reflexivity|]. cbn [app walk]. destruct (opens c); [apply IH|]. destruct (closes c); [|apply IH].
  destruct st as [|d st]; [reflexivity|]. destruct (c =? d)%N; [apply IH|reflexivity].
Qed.
Lemma walk_more : forall w st st' base, walk w st = Some st' -> walk w (st ++ base) = Some (st' ++ base).
Proof.
  induction w as [|c w IH]; intros st st' base H; cbn [walk] in *; [injection H as <-; reflexivity|]. destruct (opens c); [apply (IH (c0 :: st)); exact H|].
  destruct (closes c); [|apply IH; exact H]. destruct st as [|d st]; [discriminate|]. cbn [app]. destruct (c =? d)%N; [apply IH; exact H|discriminate].
Qed.
Definition bracket (c : char) : bool := match opens c with Some _ => true | None => closes c end.
Lemma walk_plain : forall w st, forallb (fun c => negb (bracket c)) w = true -> walk w st = Some st.
Proof.
  induction w as [|c w IH]; intros st H; [reflexivity|]. cbn [forallb] in H. apply andb_prop in H as [H1 H2]. cbn [walk]. unfold bracket in H1.
  destruct (opens c); [discriminate|]. apply negb_true_iff in H1. rewrite H1. apply IH. exact H2.
Qed.

(** ** Static analysis *)
Inductive verdict := Dead | At (st : str) | Bad.
Definition both (a b : verdict) : verdict :=
  match a, b with
  | Dead, x | x, Dead => x
  | At s, At t => if str_eqb s t then At s else Bad
  | _, _ => Bad
  end.
Definition stays (st : str) (v : verdict) : verdict :=
  match v with Dead => At st | At t => if str_eqb t st then At st else Bad | Bad => Bad end.

Section Static.
  Context {R : Type}.
  Variable U : unicode.
  Variable g : R -> pexp R.
  Variable sk : pexp R.
  Notation run := (run U g sk).
  Notation trace := (trace U g sk).
  Variable dead : str -> bool.
  Variable kind : R -> option bool.   (* Some true: never succeeds; Some false: brackets matched *)

  (** never fails *)
  Fixpoint sure (e : pexp R) : bool :=
    match e with
    | EOpt _ | ERep _ | ESkip => true
    | EThen a b => sure a && sure b
    | ESeq a | ERestore a | EAtomic _ a => sure a
    | _ => false
    end.
  (** a failure leaves the place *)
  Fixpoint back (e : pexp R) : bool :=
    match e with
    | EThen a b => back a && sure b
    | EElse a b => back a && back b
    | ERestore a | ERule _ a | EAtomic _ a | EPush a => back a
    | _ => true
    end.
  Fixpoint eff (e : pexp R) (st : str) : verdict :=
    match e with
    | EStr l => if dead l then Dead else match walk l st with Some st' => At st' | None => Bad end
    | EInsens l => if forallb alnum l then At st else Bad
    | ERange a b => if ((48 <=? a) && (b <=? 57) || (65 <=? a) && (b <=? 90) || (97 <=? a) && (b <=? 122))%N then At st else Bad
    | EClass _ | EEoi | ESoi | ESkip => At st
    | EAny | EPeek | EPop => Bad
    | EThen a b => match eff a st with Dead => Dead | At st1 => eff b st1 | Bad => Bad end
    | EElse a b => if back a then both (eff a st) (eff b st) else Bad
    | ESeq a | ERestore a | ERule _ a | EAtomic _ a | EPush a => eff a st
    | EOpt a | ERep a => if back a then stays st (eff a st) else Bad
    | ENot a => match eff a st with Bad => Bad | _ => At st end
    | ECall r => match kind r with Some true => Dead | Some false => At st | None => Bad end
    end.
  Hypothesis kind_eff : forall r b, kind r = Some b -> back (g r) = true /\ eff (g r) [] = if b then Dead else At [].
  Hypothesis skip_sure : sure sk = true.
  Hypothesis skip_eff : eff sk [] = At [].

  Variables (u tail : str).
  Hypothesis no_start : forall l, dead l = true -> forall a v, u = a ++ v -> strip_prefix l (v ++ tail) = None.
  Hypothesis barrier : forall c w, tail = c :: w -> forall st, walk u [] = Some st -> walk [c] st = None.

  (** the text read so far, with its brackets open *)
  Definition on (s : pstate) (st : str) : Prop := exists a v, u = a ++ v /\ rest s = v ++ tail /\ pos s = length a /\ walk a [] = Some st.
  Lemma on_pos : forall s st, on s st -> pos s <= length u.
  Proof. intros s st (a & v & -> & _ & -> & _). rewrite app_length. lia. Qed.
  Lemma on_place : forall s st s1, on s st -> pos s1 = pos s -> rest s1 = rest s -> on s1 st.
  Proof. intros s st s1 (a & v & H1 & H2 & H3 & H4) P Q. exists a, v. rewrite P, Q. auto. Qed.
  Lemma on_take : forall s st w k st', on s st -> rest s = w ++ k -> walk w st = Some st' -> on (advance s k) st'.
  Proof.
    intros s st w k st' (a & v & E & Rs & P & W) Rk Wk. rewrite Rs in Rk. unfold advance.
    assert (C : (exists v2, v = w ++ v2 /\ k = v2 ++ tail) \/ exists c w2, w = v ++ c :: w2 /\ tail = (c :: w2) ++ k).
    { clear - Rk. revert w Rk. induction v as [|x v IH]; intros w Rk; cbn [app] in Rk.
      - destruct w as [|y w]; [left; exists []; auto|right; exists y, w; auto].
      - destruct w as [|y w]; [left; exists (x :: v); auto|]. injection Rk as <- Rk. destruct (IH w Rk) as [(v2 & -> & ->)|(c & w2 & -> & ->)].
        + left. exists v2. auto.
        + right. exists c, w2. auto. }
    destruct C as [(v2 & -> & ->)|(c & w2 & -> & T)].
    - exists (a ++ w), v2. cbn [pos rest]. repeat split; [rewrite <- app_assoc; exact E| |rewrite walk_app, W; exact Wk].
      rewrite Rs, P, !app_length. lia.
    - exfalso. rewrite walk_app in Wk. destruct (walk v st) as [su|] eqn:Wv; [|discriminate].
      assert (Wu : walk u [] = Some su) by (rewrite E, walk_app, W; exact Wv).
      pose proof (barrier c _ T su Wu) as B. change (c :: w2) with ([c] ++ w2) in Wk. rewrite walk_app, B in Wk. discriminate.
  Qed.
  Lemma strip_rest : forall l v k, strip_prefix l v = Some k -> v = l ++ k.
  Proof.
    induction l as [|x l IH]; intros v k H; cbn [strip_prefix] in H; [injection H as <-; reflexivity|].
    destruct v as [|y v]; [discriminate|]. destruct (N.eqb_spec x y); [|discriminate]. subst y. cbn [app]. rewrite <- (IH v k H). reflexivity.
  Qed.
  Lemma alnum_plain : forall x, alnum x = true -> bracket x = false.
  Proof.
    intros x H. destruct (bracket x) eqn:B; [|reflexivity]. exfalso. unfold bracket, opens, closes in B.
    destruct (N.eqb_spec x 40); [subst; discriminate|]. destruct (N.eqb_spec x 91); [subst; discriminate|]. destruct (N.eqb_spec x 123); [subst; discriminate|].
    apply orb_prop in B as [B|B]; [apply orb_prop in B as [B|B]|]; apply N.eqb_eq in B; subst; discriminate.
  Qed.
  Lemma bracket_cases : forall x, bracket x = true -> In x [40; 91; 123; 41; 93; 125]%N.
  Proof.
    intros x B. unfold bracket, opens, closes in B. cbn [In].
    destruct (N.eqb_spec x 40); [auto|]. destruct (N.eqb_spec x 91); [auto|]. destruct (N.eqb_spec x 123); [auto|].
    apply orb_prop in B as [B|B]; [apply orb_prop in B as [B|B]|]; apply N.eqb_eq in B; subst; auto 8.
  Qed.
  Lemma strip_insensitive_rest : forall l v k, forallb alnum l = true -> strip_prefix_insensitive l v = Some k ->
    exists w, v = w ++ k /\ forallb (fun c => negb (bracket c)) w = true.
  Proof.
    induction l as [|x l IH]; intros v k A H; cbn [strip_prefix_insensitive] in H; [injection H as <-; exists []; auto|].
    cbn [forallb] in A. apply andb_prop in A as [A1 A2].
    destruct v as [|y v]; [discriminate|]. destruct (N.eqb_spec (ascii_lower x) (ascii_lower y)) as [E|]; [|discriminate].
    destruct (IH v k A2 H) as (w & -> & F). exists (y :: w). split; [reflexivity|]. cbn [forallb]. rewrite F, andb_true_r.
    destruct (bracket y) eqn:B; [|reflexivity]. exfalso. apply lower_alnum in A1. rewrite E in A1. apply bracket_cases in B. cbn [In] in B.
    repeat (destruct B as [<-|B]; [discriminate A1|]). exact B.
  Qed.
  Lemma class_plain : forall k x, in_class U k x = true -> bracket x = false.
  Proof.
    intros k x H. destruct (bracket x) eqn:B; [|reflexivity]. exfalso. apply bracket_cases in B. cbn [In] in B.
    repeat (destruct B as [<-|B]; [destruct k; discriminate H|]). exact B.
  Qed.
  Lemma on_char : forall P s st, (forall c, P c = true -> bracket c = false) -> on s st ->
    match take_char (R := R) P s with POk s1 _ => on s1 st | PErr s1 _ => s1 = s | _ => True end.
  Proof.
    intros P s st H Hs. unfold take_char. destruct (rest s) as [|c k] eqn:E; [reflexivity|]. destruct (P c) eqn:Pc; [|reflexivity].
    apply (on_take s st [c] k st Hs E). apply walk_plain. cbn [forallb]. rewrite (H c Pc). reflexivity.
  Qed.
  Lemma sure_run : forall f e k q s, sure e = true -> forall s1 t1, run f e k q s <> PErr s1 t1.
  Proof.
    induction f as [|f IH]; intros e k q s H s1 t1; [discriminate|]. destruct e; try discriminate H; cbn [sure] in H; cbn [Peg.run].
    - apply andb_prop in H as [H1 H2]. pose proof (IH e1 k q s H1) as N1. destruct (run f e1 k q s) as [s2 t2|s2 t2| |]; try discriminate; [|exfalso; eapply N1; reflexivity].
      pose proof (IH e2 k q s2 H2) as N2. destruct (run f e2 k q s2) as [s3 t3|s3 t3| |]; try discriminate. exfalso; eapply N2; reflexivity.
    - pose proof (IH e k q s H) as N1. destruct (run f e k q s) as [s2 t2|s2 t2| |]; try discriminate. exfalso; eapply N1; reflexivity.
    - destruct (run f e k q s) as [s2 t2|s2 t2| |]; discriminate.
    - destruct (run f e k q s) as [s2 t2|s2 t2| |]; try discriminate. pose proof (IH (ERep e) k q s2 eq_refl) as N2.
      destruct (run f (ERep e) k q s2) as [s3 t3|s3 t3| |]; try discriminate. exfalso; eapply N2; reflexivity.
    - pose proof (IH e k q s H) as N1. destruct (run f e k q s) as [s2 t2|s2 t2| |]; try discriminate. exfalso; eapply N1; reflexivity.
    - apply IH. exact H.
    - destruct k; try discriminate. apply IH. exact skip_sure.
  Qed.

  Definition after (e : pexp R) (s : pstate) (v : verdict) (base : str) (r : pres R) : Prop :=
    match r with
    | POk s1 _ => match v with At st' => on s1 (st' ++ base) | _ => False end
    | PErr s1 _ => (back e = true -> pos s1 = pos s /\ rest s1 = rest s) /\ exists st', on s1 st'
    | _ => True
    end.
  Lemma stays_at : forall st v, stays st v <> Bad -> stays st v = At st /\ (v = Dead \/ v = At st).
  Proof.
    intros st [|t|] H; cbn [stays] in *; [auto| |congruence]. destruct (str_eqb t st) eqn:E; [|congruence]. apply str_eqb_eq in E. subst. auto.
  Qed.
  Lemma eff_run : forall f e k q s st base, eff e st <> Bad -> on s (st ++ base) -> after e s (eff e st) base (run f e k q s).
  Proof.
    induction f as [|f IH]; intros e k q s st base H Hs; [exact Logic.I|].
    assert (HE : exists st', on s st') by eauto. 
    destruct e; cbn [eff] in H |- *; cbn [Peg.run]; try congruence.
    - destruct (dead s0) eqn:D.
      + destruct Hs as (a & v & E & Rs & P & W). rewrite Rs, (no_start _ D a v E). cbn [take after]. auto.
      + destruct (walk s0 st) as [st'|] eqn:W; [|congruence]. destruct (strip_prefix s0 (rest s)) as [r|] eqn:X; cbn [take after]; [|auto].
        apply (on_take s (st ++ base) s0 r); [exact Hs|apply strip_rest; exact X|apply walk_more; exact W].
    - destruct (forallb alnum s0) eqn:D; [|congruence]. destruct (strip_prefix_insensitive s0 (rest s)) as [r|] eqn:X; cbn [take after]; [|auto].
      destruct (strip_insensitive_rest _ _ _ D X) as (w & E & F). apply (on_take s (st ++ base) w r); [exact Hs|exact E|apply walk_plain; exact F].
    - match goal with |- context [if ?c then At st else Bad] => destruct c eqn:D; [|congruence] end.
      pose proof (on_char (fun c => (a <=? c) && (c <=? b))%N s (st ++ base)) as X.
      destruct (take_char (fun c => (a <=? c) && (c <=? b))%N s); cbn [after]; try exact Logic.I.
      + apply X; [|exact Hs]. intros c Hc. apply alnum_plain. unfold alnum, ascii_letter, ascii_digit. apply andb_prop in Hc as [C1 C2]. apply N.leb_le in C1, C2.
        apply orb_prop in D as [D|D]; [apply orb_prop in D as [D|D]|]; apply andb_prop in D as [D1 D2]; apply N.leb_le in D1, D2.
        * apply orb_true_iff. right. apply andb_true_iff. split; apply N.leb_le; lia.
        * apply orb_true_iff. left. apply orb_true_iff. left. apply andb_true_iff. split; apply N.leb_le; lia.
        * apply orb_true_iff. left. apply orb_true_iff. right. apply andb_true_iff. split; apply N.leb_le; lia.
      + rewrite X; [auto| |exact Hs]. intros c Hc. apply alnum_plain. unfold alnum, ascii_letter, ascii_digit. apply andb_prop in Hc as [C1 C2]. apply N.leb_le in C1, C2.
        apply orb_prop in D as [D|D]; [apply orb_prop in D as [D|D]|]; apply andb_prop in D as [D1 D2]; apply N.leb_le in D1, D2.
        * apply orb_true_iff. right. apply andb_true_iff. split; apply N.leb_le; lia.
        * apply orb_true_iff. left. apply orb_true_iff. left. apply andb_true_iff. split; apply N.leb_le; lia.
        * apply orb_true_iff. left. apply orb_true_iff. right. apply andb_true_iff. split; apply N.leb_le; lia.
    - pose proof (on_char (in_class U k0) s (st ++ base) (class_plain k0) Hs) as X. destruct (take_char (in_class U k0) s); cbn [after]; try exact Logic.I; [exact X|subst; auto].
    - destruct (rest s); cbn [after]; auto.
    - destruct (pos s); cbn [after]; auto.
    - destruct (eff e1 st) as [|st1|] eqn:E1; [| |congruence].
      + pose proof (IH e1 k q s st base ltac:(congruence) Hs) as X. rewrite E1 in X. destruct (run f e1 k q s) as [s1 t1|s1 t1| |]; cbn [after] in X |- *; [contradiction| |exact Logic.I..].
        destruct X as [X1 X2]. split; [|exact X2]. cbn [back]. intro B. apply andb_prop in B as [B _]. apply X1. exact B.
      + pose proof (IH e1 k q s st base ltac:(congruence) Hs) as X. rewrite E1 in X. destruct (run f e1 k q s) as [s1 t1|s1 t1| |]; cbn [after] in X |- *; try exact Logic.I.
        * pose proof (IH e2 k q s1 st1 base H X) as Y. pose proof (sure_run f e2 k q s1) as SU. destruct (run f e2 k q s1) as [s2 t2|s2 t2| |]; cbn [prepend after] in Y |- *; try exact Logic.I; [exact Y|].
          destruct Y as [Y1 Y2]. split; [|exact Y2]. cbn [back]. intro B. apply andb_prop in B as [_ B]. exfalso. eapply (SU B). reflexivity.
        * destruct X as [X1 X2]. split; [|exact X2]. cbn [back]. intro B. apply andb_prop in B as [B _]. apply X1. exact B.
    - destruct (back e1) eqn:Bk; [|congruence].
      assert (H1 : eff e1 st <> Bad) by (intro X; rewrite X in H; destruct (eff e2 st); cbn [both] in H; congruence).
      assert (H2 : eff e2 st <> Bad) by (intro X; rewrite X in H; destruct (eff e1 st); cbn [both] in H; congruence).
      pose proof (IH e1 k q s st base H1 Hs) as X. destruct (run f e1 k q s) as [s1 t1|s1 t1| |]; cbn [after] in X |- *; try exact Logic.I.
      + destruct (eff e1 st) as [|st1|]; try contradiction. destruct (eff e2 st) as [|st2|]; cbn [both] in *; [exact X| |congruence].
        destruct (str_eqb st1 st2); [exact X|congruence].
      + destruct X as [X1 X2]. destruct (X1 Bk) as [P1 P2]. pose proof (IH e2 k q s1 st base H2 (on_place _ _ _ Hs P1 P2)) as Y.
        destruct (run f e2 k q s1) as [s2 t2|s2 t2| |]; cbn [prepend after] in Y |- *; try exact Logic.I.
        * destruct (eff e2 st) as [|st2|]; try contradiction. destruct (eff e1 st) as [|st1|]; cbn [both] in *; [exact Y| |congruence].
          destruct (str_eqb st1 st2) eqn:Q; [|congruence]. apply str_eqb_eq in Q. subst. exact Y.
        * destruct Y as [Y1 Y2]. split; [|exact Y2]. cbn [back]. rewrite Bk. cbn [andb]. intro B2. destruct (Y1 B2) as [Z1 Z2]. rewrite Z1, Z2, P1, P2. auto.
    - pose proof (IH e k q s st base H Hs) as X. destruct (run f e k q s) as [s1 t1|s1 t1| |]; cbn [after] in X |- *; try exact X.
      split; [cbn; auto|]. exists (st ++ base). exact Hs.
    - destruct (back e) eqn:Bk; [|congruence]. destruct (stays_at _ _ H) as [-> D]. assert (H1 : eff e st <> Bad) by (destruct D as [-> | ->]; congruence).
      pose proof (IH e k q s st base H1 Hs) as X. destruct (run f e k q s) as [s1 t1|s1 t1| |]; cbn [after] in X |- *; try exact Logic.I.
      + destruct D as [E|E]; rewrite E in X; [contradiction|exact X].
      + destruct X as [X1 _]. destruct (X1 Bk) as [P1 P2]. eapply on_place; eassumption.
    - destruct (back e) eqn:Bk; [|congruence]. destruct (stays_at _ _ H) as [Hst D]. rewrite Hst. assert (H1 : eff e st <> Bad) by (destruct D as [-> | ->]; congruence).
      pose proof (IH e k q s st base H1 Hs) as X. destruct (run f e k q s) as [s1 t1|s1 t1| |]; cbn [after] in X |- *; try exact Logic.I.
      + destruct D as [E|E]; rewrite E in X; [contradiction|].
        assert (H3 : eff (ERep e) st <> Bad) by (cbn [eff]; rewrite Bk; exact H).
        pose proof (IH (ERep e) k q s1 st base H3 X) as Y. cbn [eff] in Y. rewrite Bk, Hst in Y.
        destruct (run f (ERep e) k q s1) as [s2 t2|s2 t2| |] eqn:Z; cbn [prepend after] in Y |- *; try exact Y.
        exfalso. eapply (sure_run f (ERep e) k q s1 eq_refl). exact Z.
      + destruct X as [X1 _]. destruct (X1 Bk) as [P1 P2]. eapply on_place; eassumption.
    - pose proof (IH e k q s st base H Hs) as X. destruct (run f e k q s) as [s1 t1|s1 t1| |]; cbn [after] in X |- *; exact X.
    - assert (H1 : eff e st <> Bad) by (intro X; rewrite X in H; congruence).
      destruct (run f e k true s) as [s1 t1|s1 t1| |]; cbn [after]; try exact Logic.I; [auto|].
      destruct (eff e st); [exact Hs|exact Hs|congruence].
    - pose proof (IH e k q s st base H Hs) as X. destruct (run f e k q s) as [s1 t1|s1 t1| |]; cbn [after] in X |- *; exact X.
    - exact (IH e k0 q s st base H Hs).
    - pose proof (IH e k q s st base H Hs) as X. destruct (run f e k q s) as [s1 t1|s1 t1| |]; cbn [after] in X |- *; exact X.
    - destruct (kind r) as [b|] eqn:K; [|congruence]. destruct (kind_eff r b K) as [Bk E].
      assert (N : eff (g r) [] <> Bad) by (rewrite E; destruct b; discriminate).
      pose proof (IH (g r) k q s [] (st ++ base) N Hs) as X. rewrite E in X. destruct (run f (g r) k q s) as [s1 t1|s1 t1| |]; cbn [after] in X |- *; try exact Logic.I.
      + destruct b; exact X.
      + destruct X as [X1 X2]. split; [|exact X2]. intros _. apply X1. exact Bk.
    - destruct k; try exact Hs. assert (N : eff sk [] <> Bad) by (rewrite skip_eff; discriminate).
      pose proof (IH sk NonAtomic q s [] (st ++ base) N Hs) as X. rewrite skip_eff in X. pose proof (sure_run f sk NonAtomic q s skip_sure) as SU.
      destruct (run f sk NonAtomic q s) as [s1 t1|s1 t1| |]; cbn [after] in X |- *; try exact X. exfalso. eapply SU. reflexivity.
  Qed.
  Lemma eff_trace : forall f e k l s a st base, eff e st <> Bad -> on s (st ++ base) -> a_pos a <= length u -> a_pos (trace f e k l s a) <= length u.
  Proof.
    induction f as [|f IH]; intros e k l s a st base H Hs Ha; [exact Ha|].
    destruct e; cbn [eff] in H; cbn [Track.trace]; try exact Ha; try congruence.
    - assert (H1 : eff e1 st <> Bad) by (intro X; rewrite X in H; congruence).
      pose proof (IH e1 k l s a st base H1 Hs Ha) as T. pose proof (eff_run f e1 k (quiet_of l) s st base H1 Hs) as X.
      destruct (run f e1 k (quiet_of l) s) as [s1 t1|s1 t1| |]; try exact T. cbn [after] in X. destruct (eff e1 st) as [|st1|]; try contradiction.
      eapply IH; [exact H|exact X|exact T].
    - destruct (back e1) eqn:Bk; [|congruence].
      assert (H1 : eff e1 st <> Bad) by (intro X; rewrite X in H; destruct (eff e2 st); cbn [both] in H; congruence).
      assert (H2 : eff e2 st <> Bad) by (intro X; rewrite X in H; destruct (eff e1 st); cbn [both] in H; congruence).
      pose proof (IH e1 k l s a st base H1 Hs Ha) as T. pose proof (eff_run f e1 k (quiet_of l) s st base H1 Hs) as X.
      destruct (run f e1 k (quiet_of l) s) as [s1 t1|s1 t1| |]; try exact T. cbn [after] in X. destruct X as [X1 _]. destruct (X1 Bk) as [P1 P2].
      eapply IH; [exact H2|eapply on_place; eassumption|exact T].
    - eapply IH; eassumption.
    - destruct (back e); [|congruence]. destruct (stays_at _ _ H) as [_ D]. eapply (IH e k l s a st base); [destruct D as [-> | ->]; congruence|assumption..].
    - destruct (back e) eqn:Bk; [|congruence]. destruct (stays_at _ _ H) as [_ D]. assert (H1 : eff e st <> Bad) by (destruct D as [-> | ->]; congruence).
      pose proof (IH e k l s a st base H1 Hs Ha) as T. pose proof (eff_run f e k (quiet_of l) s st base H1 Hs) as X.
      destruct (run f e k (quiet_of l) s) as [s1 t1|s1 t1| |]; try exact T. cbn [after] in X. destruct D as [E|E]; rewrite E in X; [contradiction|].
      eapply (IH (ERep e)); [cbn [eff]; rewrite Bk; exact H|exact X|exact T].
    - eapply IH; eassumption.
    - eapply (IH e k (turned l) s a st base); [intro X; rewrite X in H; congruence|assumption..].
    - pose proof (IH e k l s a st base H Hs Ha) as T. pose proof (on_pos _ _ Hs). destruct (run f e k (quiet_of l) s) as [s1 t1|s1 t1| |]; try assumption.
      all: match goal with |- context [tracked ?l ?k ?r ?p ?o ?b ?x] => pose proof (tracked_pos l k r p o b x) end; lia.
    - eapply IH; eassumption.
    - eapply IH; eassumption.
    - destruct (kind r) as [b|] eqn:K; [|congruence]. destruct (kind_eff r b K) as [Bk E].
      eapply (IH (g r) k l s a [] (st ++ base)); [rewrite E; destruct b; discriminate|exact Hs|exact Ha].
    - destruct k; try exact Ha. eapply (IH sk NonAtomic l s a [] (st ++ base)); [rewrite skip_eff; discriminate|exact Hs|exact Ha].
  Qed.
End Static.

(** ** The grammar *)
Definition verdicts (r : rule) : option bool :=
  match r with
  | R_StringText | R_ANY | R_PEEK | R_POP => None
  | R_String | R_StringNormal | R_StringBlock | R_MultiLineComment | R_COMMENT | R_Quotation => Some true
  | _ => Some false
  end.
Definition opening (l : str) : bool := existsb (fun d => str_eqb d l) openings.
Lemma verdicts_right : forall r b, verdicts r = Some b -> back (grammar r) = true /\ eff opening verdicts (grammar r) [] = if b then Dead else At [].
Proof. intros r b H. destruct r; try discriminate H; injection H as <-; split; vm_compute; reflexivity. Qed.
Lemma skip_right : sure skip_body = true /\ eff opening verdicts skip_body [] = At [].
Proof. split; vm_compute; reflexivity. Qed.

(** ** Balanced texts *)
Lemma opens_pair : forall a b, opens a = Some b <-> In (a, b) brackets.
Proof.
  intros a b. unfold opens. cbn [brackets In]. split.
  - intro H. destruct (N.eqb_spec a 40); [injection H as <-; subst; auto|]. destruct (N.eqb_spec a 91); [injection H as <-; subst; auto|].
    destruct (N.eqb_spec a 123); [injection H as <-; subst; auto|]. discriminate.
  - intros [H|[H|[H|[]]]]; injection H as <- <-; reflexivity.
Qed.
Lemma closes_pair : forall b, closes b = true <-> exists a, In (a, b) brackets.
Proof.
  intro b. unfold closes. cbn [brackets In]. split.
  - intro H. apply orb_prop in H as [H|H]; [apply orb_prop in H as [H|H]|]; apply N.eqb_eq in H; subst; eauto.
  - intros [a [H|[H|[H|[]]]]]; injection H as <- <-; reflexivity.
Qed.
Lemma closing_plain : forall b, closes b = true -> opens b = None.
Proof. intros b H. apply closes_pair in H as [a H]. cbn [brackets In] in H. destruct H as [H|[H|[H|[]]]]; injection H as <- <-; reflexivity. Qed.
Lemma plain_spec : forall c, ~ a_bracket c <-> opens c = None /\ closes c = false.
Proof.
  intro c. split.
  - intro H. split.
    + destruct (opens c) as [d|] eqn:E; [|reflexivity]. exfalso. apply H. exists d. left. apply opens_pair. exact E.
    + apply not_true_iff_false. intro E. apply closes_pair in E as [a E]. apply H. exists a. auto.
  - intros [H1 H2] [d [H|H]].
    + apply opens_pair in H. congruence.
    + assert (closes c = true) by (apply closes_pair; eauto). congruence.
Qed.
Lemma balanced_walk : forall x, balanced x -> forall st, walk x st = Some st.
Proof.
  induction 1 as [|c x H _ IH|a b x y H _ IHx _ IHy]; intro st; [reflexivity| |]; cbn [walk].
  - apply plain_spec in H as [-> ->]. apply IH.
  - pose proof H as H'. apply opens_pair in H'. rewrite H', walk_app, IHx. cbn [walk].
    assert (C : closes b = true) by (apply closes_pair; eauto). rewrite (closing_plain b C), C, N.eqb_refl. apply IHy.
Qed.
Lemma balanced_app : forall x y, balanced x -> balanced y -> balanced (x ++ y).
Proof.
  intros x y H. induction H as [|c x H _ IH|a b x z H Hx _ _ IHz]; intro Hy; [exact Hy| |]; cbn [app].
  - constructor; [exact H|exact (IH Hy)].
  - rewrite <- app_assoc. cbn [app]. constructor; [exact H|exact Hx|exact (IHz Hy)].
Qed.
(** the brackets of st are closed in turn *)
Inductive closing_of : str -> str -> Prop :=
| co_none : forall x, balanced x -> closing_of x []
| co_more : forall x b y st, balanced x -> closing_of y st -> closing_of (x ++ b :: y) (b :: st).
Lemma closing_prepend : forall z x st, balanced z -> closing_of x st -> closing_of (z ++ x) st.
Proof.
  intros z x st Hz H. destruct H as [x H|x b y st Hx Hy]; [constructor; apply balanced_app; assumption|].
  rewrite app_assoc. constructor; [apply balanced_app; assumption|exact Hy].
Qed.
Lemma walk_closing : forall w st, walk w st = Some [] -> closing_of w st.
Proof.
  induction w as [|c w IH]; intros st H; cbn [walk] in H; [injection H as ->; constructor; constructor|].
  destruct (opens c) as [b|] eqn:O.
  - apply IH in H. inversion H as [|x b' y st' Hx Hy E1 E2]; subst. apply opens_pair in O.
    change (c :: x ++ b :: y) with ((c :: x) ++ b :: y). replace ((c :: x) ++ b :: y) with ((c :: x ++ b :: []) ++ y) by (cbn [app]; rewrite <- app_assoc; reflexivity).
    apply closing_prepend; [|exact Hy]. constructor; [exact O|exact Hx|constructor].
  - destruct (closes c) eqn:C.
    + destruct st as [|b st]; [discriminate|]. destruct (N.eqb_spec c b); [|discriminate]. subst b. apply (co_more [] c w st); [constructor|apply IH; exact H].
    + apply (closing_prepend [c]); [|apply IH; exact H]. constructor; [apply plain_spec; auto|constructor].
Qed.
Lemma walk_balanced : forall w, walk w [] = Some [] -> balanced w.
Proof. intros w H. apply walk_closing in H. inversion H; subst. assumption. Qed.
Lemma rev_split : forall u : str, u = [] \/ exists u' c, u = u' ++ [c].
Proof. intro u. induction u as [|x u _] using rev_ind; eauto. Qed.
(** the bracket to be closed next *)
Lemma walk_last : forall n u b st, length u < n -> walk u [] = Some (b :: st) -> exists p a x, u = p ++ a :: x /\ In (a, b) brackets /\ balanced x /\ walk p [] = Some st.
Proof.
  induction n as [|n IH]; intros u b st L H; [lia|]. destruct (rev_split u) as [->|(u' & c & ->)]; [discriminate|].
  rewrite app_length in L. cbn [length] in L. rewrite walk_app in H. destruct (walk u' []) as [st1|] eqn:W; [|discriminate]. cbn [walk] in H. destruct (opens c) as [d|] eqn:O.
  - injection H as -> ->. exists u', c, []. split; [reflexivity|]. split; [apply opens_pair; exact O|]. split; [constructor|exact W].
  - destruct (closes c) eqn:C.
    + destruct st1 as [|d st1]; [discriminate|]. destruct (N.eqb_spec c d); [|discriminate]. injection H as ->. subst d.
      destruct (IH u' c (b :: st) ltac:(lia) W) as (p & a & x & -> & I & Bx & Wp).
      rewrite app_length in L. destruct (IH p b st ltac:(lia) Wp) as (p1 & a1 & x1 & -> & I1 & Bx1 & Wp1).
      exists p1, a1, (x1 ++ a :: x ++ [c]). split; [rewrite <- !app_assoc; cbn [app]; reflexivity|]. split; [exact I1|]. split; [|exact Wp1].
      apply balanced_app; [exact Bx1|]. constructor; [exact I|exact Bx|constructor].
    + injection H as ->. destruct (IH u' b st ltac:(lia) W) as (p & a & x & -> & I & Bx & Wp).
      exists p, a, (x ++ [c]). split; [rewrite <- app_assoc; reflexivity|]. split; [exact I|]. split; [|exact Wp].
      apply balanced_app; [exact Bx|]. constructor; [apply plain_spec; auto|constructor].
Qed.
Lemma closes_nothing_walk : forall u c, closes_nothing u c -> forall st, walk u [] = Some st -> walk [c] st = None.
Proof.
  intros u c [[a0 I0] H] st W. assert (C : closes c = true) by (apply closes_pair; eauto). cbn [walk]. rewrite (closing_plain c C), C.
  destruct st as [|b st]; [reflexivity|]. destruct (N.eqb_spec c b); [|reflexivity]. subst b. exfalso.
  destruct (walk_last _ u c st (Nat.lt_succ_diag_r _) W) as (p & a & x & E & I & B & _). exact (H p a x E I B).
Qed.
Lemma walk_closes_nothing : forall u c, closes c = true -> (match walk u [] with Some st => walk [c] st | None => None end) = None -> walk u [] <> None -> closes_nothing u c.
Proof.
  intros u c C N D. split; [apply closes_pair; exact C|]. intros p a x -> I B. rewrite walk_app in N, D. destruct (walk p []) as [st|]; [|congruence].
  cbn [walk] in N, D. apply opens_pair in I. rewrite I, (balanced_walk x B) in N. rewrite (closing_plain c C), C, N.eqb_refl in N. discriminate.
Qed.
Lemma balanced_closes_nothing : forall u a c, balanced u -> In (a, c) brackets -> closes_nothing u c.
Proof.
  intros u a0 c B I0. split; [eauto|]. intros p a x -> I Bx. pose proof (balanced_walk _ B []) as W. rewrite walk_app in W.
  destruct (walk p []) as [st|]; [|discriminate]. cbn [walk] in W. apply opens_pair in I. rewrite I, (balanced_walk x Bx) in W. discriminate.
Qed.

(** ** Texts without strings and comments *)
Section Texts.
  Variable U : unicode.
  Lemma bare_quiet : forall u w, bare u = true -> (w = [] \/ exists c v, w = c :: v /\ closes c = true) ->
    forall l, opening l = true -> forall a v, u = a ++ v -> strip_prefix l (v ++ w) = None.
  Proof.
    intros u w B C l D a v ->. unfold bare in B. apply negb_true_iff in B. unfold opening in D. apply existsb_exists in D as (d & Id & D).
    apply str_eqb_eq in D. subst d.
    assert (N : strip_prefix l v = None).
    { apply contains_head. apply (contains_tail l a). apply not_true_iff_false. intro X. rewrite <- not_true_iff_false in B. apply B. apply existsb_exists. eauto. }
    destruct C as [->|(c & w' & -> & C)]; [rewrite app_nil_r; exact N|]. apply strip_stranger; [|exact N].
    intro I. apply closes_pair in C as [b C]. cbn [brackets In] in C. cbn [openings In] in Id.
    destruct C as [C|[C|[C|[]]]]; injection C as <- <-; decompose [or] Id; subst; try contradiction; cbn in I; decompose [or] I; try discriminate; contradiction.
  Qed.
  Definition start_on : forall u w, on u w (mkPs 0 (u ++ w) []) ([] ++ []).
  Proof. intros u w. exists [], u. repeat split. Qed.
  Lemma unbalanced : forall text, bare text = true -> ~ balanced text -> exists s t, run_program U text = PErr s t.
  Proof.
    intros text B NB. pose proof (start_on text []) as S. rewrite app_nil_r in S.
    assert (T : forall c w, @nil char = c :: w -> forall st, walk text [] = Some st -> walk [c] st = None) by discriminate.
    destruct skip_right as [K1 K2].
    pose proof (eff_run U grammar skip_body opening verdicts verdicts_right K1 K2 text [] (bare_quiet text [] B (or_introl eq_refl)) T (peg_fuel text) (ECall R_program) NonAtomic false _ [] [] ltac:(discriminate) S) as F.
    pose proof (program_no_panic U text) as NP. pose proof (program_terminates U text) as NF.
    unfold run_program in *. destruct (run U grammar skip_body (peg_fuel text) (ECall R_program) NonAtomic false (mkPs 0 text [])) as [s t|s t| |] eqn:E; try congruence; [|eauto].
    exfalso. apply NB. cbn in F. destruct F as (a & v & E1 & E2 & _ & W). destruct (accepted_text U text s t E) as (R & _).
    rewrite R in E2. symmetry in E2. apply app_eq_nil in E2 as [-> _]. rewrite app_nil_r in E1. subst a. apply walk_balanced. exact W.
  Qed.
  Lemma unbalanced_refused : forall text, bare text = true -> ~ balanced text -> forall f, parse U f text = Ret (Err SMParseError).
  Proof. intros text B NB f. apply parse_refused. apply unbalanced; assumption. Qed.
  Lemma closer_bound : forall u c w, bare u = true -> closes_nothing u c ->
    (exists s t, run_program U (u ++ c :: w) = PErr s t) /\ a_pos (program_attempts U (u ++ c :: w)) <= length u.
  Proof.
    intros u c w B C. pose proof (start_on u (c :: w)) as S.
    assert (T : forall d v, c :: w = d :: v -> forall st, walk u [] = Some st -> walk [d] st = None).
    { intros d v H. injection H as <- <-. apply closes_nothing_walk. exact C. }
    assert (Cl : closes c = true) by (apply closes_pair; apply C).
    pose proof (bare_quiet u (c :: w) B (or_intror (ex_intro _ c (ex_intro _ w (conj eq_refl Cl))))) as Q.
    destruct skip_right as [K1 K2]. split.
    - pose proof (eff_run U grammar skip_body opening verdicts verdicts_right K1 K2 u (c :: w) Q T (peg_fuel (u ++ c :: w)) (ECall R_program) NonAtomic false _ [] [] ltac:(discriminate) S) as F.
      pose proof (program_no_panic U (u ++ c :: w)) as NP. pose proof (program_terminates U (u ++ c :: w)) as NF.
      unfold run_program in *. destruct (run U grammar skip_body (peg_fuel (u ++ c :: w)) (ECall R_program) NonAtomic false (mkPs 0 (u ++ c :: w) [])) as [s t|s t| |] eqn:E; try congruence; [|eauto].
      exfalso. cbn in F. destruct F as (a & v & E1 & E2 & _). destruct (accepted_text U (u ++ c :: w) s t E) as (R & _). rewrite R in E2. destruct v; discriminate.
    - apply (eff_trace U grammar skip_body opening verdicts verdicts_right K1 K2 u (c :: w) Q T _ (ECall R_program) NonAtomic LNone _ _ [] []); [discriminate|exact S|cbn; lia].
  Qed.
  Lemma closer_refused : forall u c w, bare u = true -> closes_nothing u c ->
    (forall f, parse U f (u ++ c :: w) = Ret (Err SMParseError)) /\ exists i, i <= length u /\ blamed U (u ++ c :: w) i.
  Proof.
    intros u c w B C. destruct (closer_bound u c w B C) as [R L]. assert (P : forall f, parse U f (u ++ c :: w) = Ret (Err SMParseError)) by (intro f; apply parse_refused; exact R).
    split; [exact P|]. exists (a_pos (program_attempts U (u ++ c :: w))). split; [exact L|]. exact (refused_blamed U [] _ (P [])).
  Qed.
End Texts.
Section Expressions.
  Variable U : unicode.
  Hypothesis HU : sane U.
  (** expressions on lines are accepted, so that their brackets match *)
  Lemma lines_balanced : forall g t x o ws, spacing g = true -> lines U t -> SpecSource.expr U x o -> plain_start x = true ->
    t = [] \/ head_is operator_start x = false -> spacing ws = true -> bare (g ++ t ++ x ++ ws) = true -> balanced (g ++ t ++ x ++ ws).
  Proof.
    intros g t x o ws Hg Ht Hx Hp Hh Hs B. destruct (walk (g ++ t ++ x ++ ws) []) as [[|b st]|] eqn:W; [apply walk_balanced; exact W| |].
    all: exfalso; assert (R : exists s r, run_program U (g ++ t ++ x ++ ws) = PErr s r) by (apply unbalanced; [exact B|intro X; rewrite (balanced_walk _ X []) in W; discriminate]).
    all: destruct (lines_expr_passes U HU t x o ws [] (length g) Ht Hx Hp Hh (end_stop U HU ws (spacing_app ws [10%N] Hs eq_refl)) eq_refl) as [So Pa].
    all: rewrite app_nil_r in *; destruct (refused_floor U _ _ _ _ R _ (spacing_first U g _ Hg So) Pa) as (e & [L1 _] & _ & L2).
    all: unfold str, char in *; rewrite !app_length in *; lia.
  Qed.
  Lemma closer_exact : forall g t x o ws a c w, spacing g = true -> lines U t -> SpecSource.expr U x o -> plain_start x = true ->
    t = [] \/ head_is operator_start x = false -> spacing ws = true -> In (a, c) brackets -> bare (g ++ t ++ x ++ ws) = true ->
    blamed U ((g ++ t ++ x ++ ws) ++ c :: w) (length (g ++ t ++ x ++ ws)).
  Proof.
    intros g t x o ws a c w Hg Ht Hx Hp Hh Hs Hc B. pose proof (balanced_closes_nothing _ a c (lines_balanced g t x o ws Hg Ht Hx Hp Hh Hs B) Hc) as N.
    destruct (closer_bound U _ c w B N) as [R L].
    assert (F : In c foreign) by (cbn [brackets In] in Hc; destruct Hc as [H|[H|[H|[]]]]; injection H as <- <-; cbn; auto 20).
    destruct (sign_place U HU g t x o ws c w Hg Ht Hx Hp Hh Hs F) as [_ (i & L2 & -> & Bl)].
    replace (length (g ++ t ++ x ++ ws)) with (a_pos (program_attempts U ((g ++ t ++ x ++ ws) ++ c :: w))) by lia. exact Bl.
  Qed.
End Expressions.
