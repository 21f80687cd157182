(** The replies of the playground follow [SpecPage]. *)
From Verif Require Import Base Ast SmError Display Internal Eval Tex Peg Build Runner SpecAnswer SpecPest Source SpecValue SpecReply SpecPage.
From Verif Require Import ProofRunner ProofReply ProofFollow ProofMeaning ProofDisplay.
Local Open Scope Z_scope.
Local Open Scope outcome_scope.

Section Page.
  Variable U : unicode.
  Variable W : Z.
  Hypothesis HW : 0 < W.
  Variable debug : str -> sm_error -> str.
  Notation anonymous := (lit "anonymous").
  Notation parse := (parse U anonymous).
  Notation page := (page U W debug).
  Notation pg_run := (pg_run W parse debug).

  Definition held (c : context) : option ast := btree_get Z.compare (index c) (outputs c).

  Lemma entered_held : forall s c, keys_ok c -> held (entered s c) = None.
  Proof.
    intros s c [_ H]. unfold held, entered. cbn [index outputs]. induction (outputs c) as [|[k v] l IH]; [reflexivity|]. inversion H as [|? ? K K']; subst. cbn [btree_get].
    cbn [fst] in K. destruct (Z.compare_spec (index c + 1) k) as [E|E|E]; try lia. apply IH. exact K'.
  Qed.
  Lemma stored_held : forall o s c, keys_ok c -> held (stored o (entered s c)) = Some o.
  Proof.
    intros o s c [_ H]. unfold held, entered, stored. cbn [index outputs]. induction (outputs c) as [|[k v] l IH]; [cbn; rewrite Z.compare_refl; reflexivity|]. inversion H as [|? ? K K']; subst. cbn [btree_get app].
    cbn [fst] in K. destruct (Z.compare_spec (index c + 1) k) as [E|E|E]; try lia. apply IH. exact K'.
  Qed.

  (** one text *)
  Lemma evaluate_cases : forall text c, keys_ok c -> let c' := fst (Runner.evaluate W parse text c) in let r := snd (Runner.evaluate W parse text c) in
    keys_ok c' /\
    ((exists a b w, understood U text a /\ evaluates W a (Ok b) /\ shown b w /\ r = Ret (Ok w) /\ held c' = Some b) \/
     (refused U text /\ r = Ret (Err SMParseError) /\ held c' = None) \/
     (exists a e, understood U text a /\ evaluates W a (Err e) /\ r = Ret (Err e) /\ held c' = None) \/
     (silent U W text /\ is_ret r = false)).
  Proof.
    intros text c K c' r. split; [apply evaluate_keys_ok; exact K|]. unfold c', r. rewrite evaluate_unfold by exact K. clear c' r.
    destruct (parse text) as [[a|e]|k|] eqn:P; cbn [fst snd].
    - assert (P' : understood U text a) by (apply understood_parse; exact P).
      assert (ON : forall a', understood U text a' -> a' = a) by (intros a' Q; apply understood_parse in Q; congruence).
      assert (NR : ~ refused U text) by (intros R; apply refused_parse in R; congruence).
      destruct (forward W a (entered text c)) as [[[o|e] c']|k|] eqn:F; cbn [fst snd].
      + pose proof F as F'. apply evaluates_forward in F' as [F' _]; [|exact HW]. destruct (display o) as [w|k|] eqn:D.
        * left. exists a, o, w. split; [exact P'|]. split; [exact F'|]. split; [apply display_shown; [eapply evaluates_value; exact F'|exact D]|]. split; [reflexivity|apply stored_held; exact K].
        * right; right; right. split; [|reflexivity]. split; [exact NR|]. intros a' r' Q E. rewrite (ON a' Q) in E. rewrite (forward_evaluates W a r' _ HW E) in F. injection F as -> _.
          exists o. split; [reflexivity|]. intros w S. apply display_shown in S; [congruence|eapply evaluates_value; exact F'].
        * apply evaluates_value in F'. destruct o; discriminate || contradiction.
      + right; right; left. pose proof F as F'. apply evaluates_forward in F' as [F' _]; [|exact HW]. exists a, e. repeat split; try assumption. apply entered_held. exact K.
      + right; right; right. split; [|reflexivity]. split; [exact NR|]. intros a' r' Q E. rewrite (ON a' Q) in E. rewrite (forward_evaluates W a r' _ HW E) in F. discriminate.
      + exfalso. exact (forward_fuel W a _ HW F).
    - right; left. pose proof (parse_error_only U text e P) as ->. split; [apply refused_parse; exact P|]. split; [reflexivity|apply entered_held; exact K].
    - right; right; right. split; [|reflexivity]. split; [intros R; apply refused_parse in R; congruence|]. intros a r Q. apply understood_parse in Q. congruence.
    - exfalso. exact (ProofBuild.parse_terminates U _ _ P).
  Qed.

  Lemma value_tex : forall b w, shown b w -> exists t, to_tex b = Ret t /\ tex_shown b t.
  Proof.
    intros b w H. assert (V : value b) by (destruct H; exact I). apply display_shown in H; [|exact V]. destruct b as [|l|s ps|b|n|d|s|s]; try contradiction; try discriminate.
    - destruct b; eexists; (split; [reflexivity|constructor]).
    - exists (show_int n). split; [reflexivity|]. constructor. apply display_shown; [exact I|reflexivity].
    - exists (show_decimal d). split; [reflexivity|]. constructor. apply display_shown; [exact I|reflexivity].
    - eexists; (split; [reflexivity|constructor]).
    - eexists; (split; [reflexivity|constructor]).
  Qed.
  Lemma tex_shown_once : forall b t u, tex_shown b t -> tex_shown b u -> t = u.
  Proof. intros b t u H1 H2. destruct H1; inversion H2; subst; try reflexivity; eapply shown_once; eassumption. Qed.

  Lemma broken_run : forall calls g, poisoned g = true -> map reply (pg_run calls g) = map (fun _ => None) calls.
  Proof.
    induction calls as [|c calls IH]; intros g H; [reflexivity|]. cbn [Runner.pg_run]. rewrite (pg_poisoned W parse debug c g H). cbn [map reply]. f_equal. apply IH. exact H.
  Qed.
  Lemma run_page : forall calls g, poisoned g = false -> keys_ok (runner g) -> (forall b, held (runner g) = Some b -> exists w, shown b w) ->
    page (held (runner g)) calls (map reply (pg_run calls g)).
  Proof.
    induction calls as [|call calls IH]; intros g P K H; [constructor|]. destruct call as [text|].
    - pose proof (evaluate_cases text (runner g) K) as E. cbv zeta in E. cbn [Runner.pg_run pg_step]. unfold pg_result. rewrite P.
      destruct (Runner.evaluate W parse text (runner g)) as [c r]. cbn [fst snd] in E. destruct E as [K' [(a & b & w & U1 & U2 & U3 & -> & Hc)|[(R & -> & Hc)|[(a & e & U1 & U2 & -> & Hc)|[S E]]]]].
      + cbn [map reply Runner.text_of is_ret negb]. apply (page_value U W debug _ text a b); try assumption. rewrite <- Hc. apply (IH (mkPlayground false c)); [reflexivity|exact K'|].
        cbn [runner]. rewrite Hc. intros b' Q. injection Q as <-. eauto.
      + cbn [map reply Runner.text_of is_ret negb]. apply page_refused; [assumption|]. rewrite <- Hc. apply (IH (mkPlayground false c)); [reflexivity|exact K'|]. cbn [runner]. rewrite Hc. discriminate.
      + cbn [map reply Runner.text_of is_ret negb]. apply (page_error U W debug _ text a e); try assumption. rewrite <- Hc. apply (IH (mkPlayground false c)); [reflexivity|exact K'|]. cbn [runner]. rewrite Hc. discriminate.
      + cbn [map]. rewrite E. cbn [negb]. rewrite broken_run by reflexivity. replace (reply (Runner.text_of debug text r)) with (@None str); [apply (page_broken U W debug _ text calls S)|].
        destruct r as [[?|?]|?|]; try discriminate; reflexivity.
    - cbn [Runner.pg_run pg_step]. unfold pg_result_tex. rewrite P. unfold last_output. fold (held (runner g)). destruct (held (runner g)) as [b|] eqn:Hb.
      + destruct (H b eq_refl) as [w S]. destruct (value_tex b w S) as (t & E & T). rewrite E. cbn [map reply is_ret negb]. apply page_tex; [exact T|].
        rewrite <- Hb. apply (IH (mkPlayground false (runner g))); [reflexivity|exact K|]. cbn [runner]. rewrite Hb. exact H.
      + cbn [map reply is_ret negb]. rewrite broken_run by reflexivity. apply (page_no_tex U W debug calls).
  Qed.

  Lemma understood_once : forall text a b, understood U text a -> understood U text b -> a = b.
  Proof. intros text a b H1 H2. apply understood_parse in H1, H2. congruence. Qed.
  Lemma evaluates_once : forall a r r', evaluates W a r -> evaluates W a r' -> r = r'.
  Proof.
    intros a r r' H1 H2. pose proof (forward_evaluates W a r empty_context HW H1). pose proof (forward_evaluates W a r' empty_context HW H2). congruence.
  Qed.
  Lemma understood_refused : forall text a, understood U text a -> refused U text -> False.
  Proof. intros text a H R. apply understood_parse in H. apply refused_parse in R. congruence. Qed.
  Lemma page_once : forall l calls rs, page l calls rs -> forall rs', page l calls rs' -> rs = rs'.
  Proof.
    assert (SV : forall text a b w, understood U text a -> evaluates W a (Ok b) -> shown b w -> silent U W text -> False).
    { intros text a b w H1 H2 H3 [_ S]. destruct (S a _ H1 H2) as (b' & Q & N). injection Q as <-. exact (N w H3). }
    assert (SE : forall text a e, understood U text a -> evaluates W a (Err e) -> silent U W text -> False).
    { intros text a e H1 H2 [_ S]. destruct (S a _ H1 H2) as (b' & Q & N). discriminate. }
    assert (SR : forall text, refused U text -> silent U W text -> False) by (intros text R [N _]; contradiction).
    induction 1 as [l|l text a b w calls rs H1 H2 H3 _ IH|l text calls rs R _ IH|l text a e calls rs H1 H2 _ IH|b t calls rs T _ IH|l text calls S|calls];
      intros rs' H'; inversion H'; subst; try reflexivity; try (exfalso; eauto using understood_refused; fail).
    - match goal with X : understood U text ?a', Y : evaluates W ?a' (Ok ?b'), Z : shown ?b' ?w' |- _ =>
        pose proof (understood_once _ _ _ H1 X); subst a'; pose proof (evaluates_once _ _ _ H2 Y) as Q; injection Q as <-; pose proof (shown_once _ _ _ H3 Z); subst w' end.
      f_equal. apply IH. assumption.
    - match goal with X : understood U text ?a', Y : evaluates W ?a' (Err _) |- _ =>
        pose proof (understood_once _ _ _ H1 X); subst a'; pose proof (evaluates_once _ _ _ H2 Y) as Q; discriminate end.
    - f_equal. apply IH. assumption.
    - match goal with X : understood U text ?a', Y : evaluates W ?a' (Ok _) |- _ =>
        pose proof (understood_once _ _ _ H1 X); subst a'; pose proof (evaluates_once _ _ _ H2 Y) as Q; discriminate end.
    - match goal with X : understood U text ?a', Y : evaluates W ?a' (Err ?e') |- _ =>
        pose proof (understood_once _ _ _ H1 X); subst a'; pose proof (evaluates_once _ _ _ H2 Y) as Q; injection Q as <- end.
      f_equal. apply IH. assumption.
    - match goal with X : tex_shown b ?t' |- _ => pose proof (tex_shown_once _ _ _ T X); subst t' end. f_equal. apply IH. assumption.
  Qed.

  Lemma playground_page : forall calls rs, map reply (pg_run calls fresh_playground) = rs <-> page None calls rs.
  Proof.
    intros calls rs. assert (R : page None calls (map reply (pg_run calls fresh_playground))).
    { apply (run_page calls fresh_playground); [reflexivity|split; constructor|discriminate]. }
    split; [intros <-; exact R|]. intros H. exact (page_once _ _ _ R _ H).
  Qed.
End Page.
