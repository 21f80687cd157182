(** The tests on trees. *)
From Coq Require Import QArith Qpower.
From Verif Require Import Base Ast Display SpecTest ProofText ProofAst ProofOrder.
Local Open Scope Z_scope.

Theorem zero_test : forall a, is_zero a = true <-> is_the_number a 0.
Proof.
  intro a. unfold is_the_number. destruct a; cbn [is_zero number]; try (split; [discriminate|intros (v & H & _); discriminate H]).
  - rewrite Z.eqb_eq. split; [intros ->; eexists; split; reflexivity|]. intros (v & H & E). injection H as <-. apply inject_Z_injective, E.
  - rewrite Z.eqb_eq. split.
    + intro H. eexists. split; [reflexivity|]. rewrite H. ring.
    + intros (v & H & E). injection H as <-. apply Qmult_integral in E. destruct E as [E|E]; [apply inject_Z_injective, E|]. exfalso. exact (power_nonzero _ E).
Qed.
Theorem one_test : forall a, is_one a = true <-> is_the_number a 1.
Proof.
  intro a. unfold is_the_number. destruct a; cbn [is_one number]; try (split; [discriminate|intros (v & H & _); discriminate H]).
  - rewrite Z.eqb_eq. split; [intros ->; eexists; split; reflexivity|]. intros (v & H & E). injection H as <-. apply inject_Z_injective, E.
  - assert (X : (match dec_compare d (mkDecimal 1 0) with Eq => true | _ => false end) = true <-> dec_compare d (mkDecimal 1 0) = Eq) by (destruct (dec_compare d _); split; congruence).
    rewrite X, compare_value. cbn [dec_int dec_scale]. change (inject_Z 1 * inject_Z 10 ^ (- 0))%Q with 1%Q. split.
    + intro H. eexists. split; [reflexivity|exact H].
    + intros (v & H & E). injection H as <-. exact E.
Qed.

Theorem string_test : forall a, is_string a = true <-> exists s, a = Str s.
Proof. intros []; cbn; split; try discriminate; try (intros [? H]; discriminate H); intros; try reflexivity; eauto. Qed.
Theorem boolean_test : forall a, is_boolean a = true <-> exists b, a = Boolean b.
Proof. intros []; cbn; split; try discriminate; try (intros [? H]; discriminate H); intros; try reflexivity; eauto. Qed.
Theorem null_test : forall a, is_null a = true <-> exists s, a = Sym s /\ name s = lit "Null".
Proof.
  intros []; cbn [is_null]; split; try discriminate; try (intros (s' & H & _); discriminate H).
  - intro H. apply str_eqb_eq in H. eauto.
  - intros (s' & H & E). injection H as ->. apply str_eqb_eq, E.
Qed.
Theorem times_test : forall s, Forall (fun c => ~ In 58%N c) (name_space s) -> ~ In 58%N (name s) ->
  (is_times s = true <-> name_space s = [lit "std"; lit "infix"] /\ name s = lit "times").
Proof.
  intros s H1 H2. unfold is_times. rewrite str_eqb_eq. split.
  - intro E. destruct (symbol_from_display s H1 H2) as [A B]. rewrite E in A, B. rewrite <- A, <- B. split; vm_compute; reflexivity.
  - intros [A B]. unfold display_symbol. rewrite A, B. vm_compute. reflexivity.
Qed.
Theorem kind_tests : forall s, (is_prefix s = true <-> exists t, kind s = Prefix t) /\ (is_infix s = true <-> exists t p, kind s = Infix t p) /\
  (is_suffix s = true <-> exists t, kind s = Suffix t).
Proof.
  intro s. unfold is_prefix, is_infix, is_suffix. destruct (kind s); repeat split; try discriminate; try (intros (t & H); discriminate H); try (intros (t & p & H); discriminate H); intros; try reflexivity; eauto.
Qed.
