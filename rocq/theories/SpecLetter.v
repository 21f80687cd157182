(** Replacing letters: characters outside ASCII that are no signs of the grammar,
    by others of the same class. *)
From Coq Require Import Sorting.Permutation.
From Verif Require Import Base Ast Peg.
Local Open Scope N_scope.

(** ¬ ´ ¶ × ÷ … ⁋ ⁒ √ ∧ ∨ ∷ ≠ ≪ ≫ ⊕ ⊗ ⊙ ⋅ ⋘ ⋙ ， ： ； *)
Definition grammar_signs : list char :=
  [172; 180; 182; 215; 247; 8230; 8267; 8274; 8730; 8743; 8744; 8759; 8800; 8810; 8811; 8853; 8855; 8857; 8901; 8920; 8921; 65292; 65306; 65307].
(** phi replaces characters, and psi puts them back *)
Record replaces (U : unicode) (phi psi : char -> char) : Prop := mkReplaces {
  back : forall c, psi (phi c) = c;
  forth : forall c, phi (psi c) = c;
  kept : forall c, c < 128 \/ In c grammar_signs -> phi c = c;
  same_start : forall c, xid_start U (phi c) = xid_start U c;
  same_continue : forall c, xid_continue U (phi c) = xid_continue U c;
  same_white : forall c, white_space (phi c) = white_space c }.

Section Trees.
  Variable phi : char -> char.
  Definition replaced_kind (k : symbol_kind) : symbol_kind :=
    match k with Prefix s => Prefix (map phi s) | Infix s p => Infix (map phi s) p | Suffix s => Suffix (map phi s) | k => k end.
  Definition replaced_symbol (s : symbol) : symbol := mkSymbol (map (map phi) (name_space s)) (map phi (name s)) (replaced_kind (kind s)) (attributes s).
  (** the same tree with the replaced names and strings; options are kept in the order of
      their keys, and so may have to be put in another order *)
  Inductive replaced : ast -> ast -> Prop :=
  | replaced_empty : replaced EmptyStatement EmptyStatement
  | replaced_boolean : forall b, replaced (Boolean b) (Boolean b)
  | replaced_integer : forall n, replaced (Integer n) (Integer n)
  | replaced_decimal : forall d, replaced (Decimal d) (Decimal d)
  | replaced_sym : forall s, replaced (Sym s) (Sym (replaced_symbol s))
  | replaced_string : forall s, replaced (Str s) (Str (map phi s))
  | replaced_call : forall s ps qs,
      Forall2 (fun p q => Forall2 replaced (arguments p) (arguments q) /\ ppos p = ppos q /\
        exists opts, Forall2 (fun o o' => replaced (fst o) (fst o') /\ replaced (snd o) (snd o')) (options p) opts /\ Permutation opts (options q)) ps qs ->
      replaced (Function s ps) (Function (replaced_symbol s) qs).
End Trees.
