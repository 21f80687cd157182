(** projects/sm-ast/src/traits/wolfram/mod.rs *)
From Verif Require Import Base Ast Display.

(** wolfram_wxf::WolframValue (external): the constructors the crate uses.
    [WSystem n] stands for the result of the library call [WolframValue::symbol(n)],
    [WSymbol n] for the variant [WolframValue::Symbol]. used at wolfram/mod.rs:8-37. *)
Inductive wolfram :=
| WSkip
| WFunction (h : wolfram) (args : list wolfram)
| WSystem (n : str)
| WSymbol (n : str)
| WBigInteger (n : Z)
| WBigDecimal (s : str)
| WString (s : str).

Section Wolfram.
  (** text_utils::capitalize_first_letter (external), any function. *)
  Context (cap : str -> str).

  (** wolfram/mod.rs:45-51 [function_map] *)
  Definition function_map (s : symbol) : str :=
    if str_eqb (name s) (lit "factor") then lit "FactorInteger" else cap (name s).

  (** wolfram/mod.rs:8-37 [impl ToWolfram for AST]; [WolframValue::function(n, v)]
      is the call of the symbol n on the converted elements of v. *)
  Fixpoint to_wolfram (a : ast) : wolfram :=
    match a with
    | EmptyStatement => WSkip
    | Program s => WFunction (WSystem (lit "CompoundExpression")) (map to_wolfram s)
    | Function s ps =>
        fold_left
          (fun hd vec => WFunction hd vec)
          (map (fun p => map to_wolfram (arguments p) ++
                         map (fun kv => WFunction (WSystem (lit "Rule"))
                                          [to_wolfram (fst kv); to_wolfram (snd kv)])
                             (options p)) ps)
          (WSystem (function_map s))
    | Boolean b => if b then WSystem (lit "True") else WSystem (lit "False")
    | Integer i => WBigInteger i
    | Decimal f => WBigDecimal (show_decimal f)
    | Sym s => WSymbol (name s)
    | Str s => WString s
    end.
End Wolfram.

(** [ToWolfram::to_wolfram_bytes] (external wolfram_wxf): the bytes of the exported
    value, by any encoding; used at parser/parse.rs:22 *)
Definition to_wolfram_bytes {B} (cap : str -> str) (encode : wolfram -> B) (a : ast) : B := encode (to_wolfram cap a).
