(** Places in a text, and trees whose positions point into the text. *)
From Verif Require Import Base Ast SpecPeg.
Local Open Scope Z_scope.

Definition is_feed (c : char) : bool := (c =? 10)%N.
(** The line of the place after the characters s: one more than the line feeds in s *)
Definition line_after (s : str) : Z := 1 + Z.of_nat (length (filter is_feed s)).

(** the characters after the last line feed *)
Fixpoint last_line (s : str) : str :=
  match s with
  | [] => []
  | c :: s' => if existsb is_feed s then last_line s' else s
  end.
Definition column_after (s : str) : Z := 1 + Z.of_nat (length (last_line s)).

(** the line and the column of offset i *)
Definition place (text : str) (i : nat) : Z * Z :=
  (line_after (firstn i text), column_after (firstn i text)).

(** the position p, of the file called f, is that of the part of the text *)
Definition marks (f text : str) (p : position) (part : str) : Prop :=
  exists i j, (i <= j <= length text)%nat /\ part = substring text i j /\
    p = mkPosition f (place text i) (place text j).

(** the sign of a prefix or suffix operator *)
Definition sign (k : symbol_kind) : option str :=
  match k with Prefix g => Some g | Suffix g => Some g | _ => None end.

(** every argument list of the tree has the position of a part of the text; for a
    prefix or suffix operator that part is its sign *)
Inductive located (f text : str) : ast -> Prop :=
| located_empty : located f text EmptyStatement
| located_integer : forall i, located f text (Integer i)
| located_decimal : forall d, located f text (Decimal d)
| located_boolean : forall b, located f text (Boolean b)
| located_string : forall s, located f text (Str s)
| located_symbol : forall s, kind s = Normal -> located f text (Sym s)
| located_function : forall s ps,
    Forall (fun q =>
      (exists part, marks f text (ppos q) part /\ forall g, sign (kind s) = Some g -> part = g) /\
      Forall (located f text) (arguments q) /\
      Forall (fun kv => located f text (fst kv) /\ located f text (snd kv)) (options q)) ps ->
    located f text (Function s ps).

(** a before b in the text *)
Definition not_after (a b : Z * Z) : Prop := fst a < fst b \/ fst a = fst b /\ snd a <= snd b.
