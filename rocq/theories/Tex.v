(** projects/sm-ast/src/traits/tex/{mod,utils}.rs *)
From Verif Require Import Base Ast Display.
Local Open Scope Z_scope.
Local Open Scope outcome_scope.

(** The raw strings of tex/mod.rs contain two backslashes, the ordinary strings
    of tex/utils.rs one. *)
Definition str_in (s : str) (l : list str) : bool := existsb (str_eqb s) l.

(** tex/mod.rs:61-68 [height] *)
Definition height (a : ast) : Z := match a with EmptyStatement => 0 | _ => 1 end.

(** the namespace tests of tex/mod.rs:23-28, 73-78 *)
Definition ns_is (s : symbol) (n : str) : bool :=
  match name_space s with
  | [a; b] => str_eqb a (lit "std") && str_eqb b n
  | _ => false
  end.

(** tex/mod.rs:69-81 [width] *)
Definition width (a : ast) : outcome Z :=
  match a with
  | EmptyStatement => Ret 0
  | Function s p =>
      if ns_is s (lit "prefix") then Panic PUnimplemented
      else if ns_is s (lit "infix") then
        match p with
        | p0 :: _ => Ret (Z.of_nat (length (arguments p0)))
        | [] => Panic PIndex
        end
      else if ns_is s (lit "suffix") then Panic PUnimplemented
      else Ret 1
  | _ => Ret 1
  end.

(** [iter().max()] on a non-empty list; tex/mod.rs:37, 89 *)
Definition max_list (l : list Z) : outcome Z :=
  match l with
  | [] => Panic PUnwrap
  | x :: r => Ret (fold_left Z.max r x)
  end.

(** tex/mod.rs:85-90 [Parameter::height] *)
Definition param_height (p : parameter) : outcome Z :=
  match arguments p with
  | [] => Ret 1
  | l => max_list (map height l)
  end.

(** tex/utils.rs:8-17 [infix_tex]; operands are printed with Display. *)
Definition infix_tex (s : symbol) (p : parameter) : outcome str :=
  match arguments p with
  | lhs :: rhs :: _ =>
      l <- display lhs; r <- display rhs;
      if str_eqb (name s) (lit "add") then Ret (l ++ lit " " ++ lit "+" ++ lit " " ++ r)
      else if str_eqb (name s) (lit "times") then Ret (l ++ lit " " ++ r)
      else Ret (l ++ lit " " ++ name s ++ lit " " ++ r)
  | _ => Panic PIndex
  end.

Definition open_scaled (m : Z) : str := if m >? 1 then lit "\left(" else lit "(".
(** utils.rs:37-42: the one-argument branch closes with [\left)] *)
Definition close_one (m : Z) : str := if m >? 1 then lit "\left)" else lit ")".
(** utils.rs:55-60 *)
Definition close_many (m : Z) : str := if m >? 1 then lit "\right)" else lit ")".

(** tex/utils.rs:19-64 [omit_brackets_function]; [tex] is [AST::to_tex]. *)
Definition omit_brackets (tex : ast -> outcome str) (p : parameter) : outcome str :=
  match arguments p with
  | [] => Ret (lit "()")
  | [a] =>
      w <- width a;
      if w <=? 1 then t <- tex a; Ret (lit " " ++ t)
      else
        m <- param_height p;
        t <- tex a;
        Ret (open_scaled m ++ t ++ close_one m)
  | l =>
      m <- param_height p;
      t <- omapM tex l;
      Ret (open_scaled m ++ join (lit ", ") t ++ close_many m)
  end.

(** the names of tex/mod.rs:30 (see [to_tex]) *)
Definition trig_names : list str :=
  [lit "sin"; lit "cos"; lit "tan"; lit "cot"; lit "sec"; lit "csc"; lit "arcsin";
   lit "arccos"; lit "arctan"].
(** the names of tex/mod.rs:33 (see [to_tex]) *)
Definition operator_names : list str :=
  [lit "arccot"; lit "arcsec"; lit "arccsc"; lit "arcsinh"; lit "arccosh"; lit "arctanh";
   lit "arccoth"; lit "arcsech"; lit "arccsch"].

(** tex/mod.rs:13-58 [impl ToTex for AST] and [impl ToTex for Parameter] *)
Fixpoint to_tex (a : ast) : outcome str :=
  match a with
  | EmptyStatement => Ret []
  | Program _ => Panic PUnimplemented
  | Integer i => Ret (show_int i)
  | Decimal d => Ret (show_decimal d)
  | Sym s => Ret (name s)
  | Str s => Ret (lit "\\text{" ++ s ++ lit "}")
  | Function s p =>
      if ns_is s (lit "prefix") then Panic PUnimplemented
      else if ns_is s (lit "infix") then
        match p with p0 :: _ => infix_tex s p0 | [] => Panic PIndex end
      else if ns_is s (lit "suffix") then Panic PUnimplemented
      else if str_in (name s) trig_names then
        match p with
        | p0 :: _ => t <- omit_brackets to_tex p0; Ret (lit "\\" ++ display_symbol s ++ t)
        | [] => Panic PIndex
        end
      else if str_in (name s) operator_names then
        match p with
        | p0 :: _ => t <- omit_brackets to_tex p0;
                     Ret (lit "\\operatorname{" ++ display_symbol s ++ lit "}" ++ t)
        | [] => Panic PIndex
        end
      else if str_eqb (name s) (lit "List") then
        match p with
        | p0 :: _ =>
            m <- max_list (map height (arguments p0));
            e <- omapM to_tex (arguments p0);
            if m >? 1
            then Ret (lit "\\left\\{" ++ join (lit ", ") e ++ lit "\\right\\}")
            else Ret (lit "\\{" ++ join (lit ", ") e ++ lit "\\}")
        | [] => Panic PIndex
        end
      else
        inner <- omapM (fun q => t <- omapM to_tex (arguments q);
                                 Ret (lit "\\left(" ++ join (lit ", ") t ++ lit "\\right)")) p;
        Ret (lit "\\operatorname{" ++ name s ++ lit "}" ++ join [] inner)
  | Boolean b => Ret (if b then lit "\\mathtt{true}" else lit "\\mathtt{false}")
  end.
