(** Preprocessor expressions: the grammar and the values of C. *)
From Verif Require Import Prelude ComputerModel.
Local Open Scope Z_scope.

Inductive binop := Mul | Div | Rem | Add | Sub | Shl | Shr | Lt | Gt | Le | Ge | Eq | Ne | BAnd | BXor | BOr | LAnd | LOr.
Inductive unop := Compl | Not | Minus | Plus.

(** Tokens of an expression; a name is one that is not a macro. *)
Inductive tok := TNum (n : Z) | TName | TOpen | TClose | TBin (b : binop) | TCompl | TNot.
Definition utok (u : unop) : tok :=
  match u with Compl => TCompl | Not => TNot | Minus => TBin Sub | Plus => TBin Add end.

Inductive expr := ENum (n : Z) | EPar (e : expr) | EUn (u : unop) (e : expr) | EBin (b : binop) (e1 e2 : expr).

(** Binding strength: C11 6.5.5-6.5.14. *)
Definition prec (b : binop) : Z :=
  match b with
  | Mul | Div | Rem => 10 | Add | Sub => 9 | Shl | Shr => 8 | Lt | Gt | Le | Ge => 7 | Eq | Ne => 6
  | BAnd => 5 | BXor => 4 | BOr => 3 | LAnd => 2 | LOr => 1
  end.

(** [phrase k ts e]: the tokens [ts] are an expression made of operators at least
    as strong as [k], and [e] is its structure.  Binary operators associate to the
    left, unary ones (strength 11) bind strongest. *)
Inductive phrase : Z -> list tok -> expr -> Prop :=
| ph_num n : phrase 11 [TNum n] (ENum n)
| ph_name : phrase 11 [TName] (ENum 0)
| ph_paren ts e : phrase 1 ts e -> phrase 11 (TOpen :: ts ++ [TClose]) (EPar e)
| ph_unary u ts e : phrase 11 ts e -> phrase 11 (utok u :: ts) (EUn u e)
| ph_binary b l r e1 e2 : phrase (prec b) l e1 -> phrase (prec b + 1) r e2 -> phrase (prec b) (l ++ TBin b :: r) (EBin b e1 e2)
| ph_weaker k ts e : 1 <= k -> phrase (k + 1) ts e -> phrase k ts e.

(** A 64-bit number, or undefined. *)
Definition c64 (z : Z) : option Z := if (- 2 ^ 63 <=? z) && (z <? 2 ^ 63) then Some z else None.
Definition truth (b : bool) : option Z := Some (if b then 1 else 0).

(** C11 6.5.5-6.5.12 on [long long]; [>>] of a negative number is arithmetic. *)
Definition apply2 (b : binop) (x y : Z) : option Z :=
  match b with
  | Mul => c64 (x * y) | Add => c64 (x + y) | Sub => c64 (x - y)
  | Div => if y =? 0 then None else c64 (Z.quot x y)
  | Rem => if (y =? 0) || ((x =? - 2 ^ 63) && (y =? -1)) then None else Some (Z.rem x y)
  | Shl => if (x <? 0) || (y <? 0) || (y >=? 64) then None else c64 (x * 2 ^ y)
  | Shr => if (y <? 0) || (y >=? 64) then None else Some (x / 2 ^ y)
  | Lt => truth (x <? y) | Gt => truth (y <? x) | Le => truth (x <=? y) | Ge => truth (y <=? x)
  | Eq => truth (x =? y) | Ne => truth (negb (x =? y))
  | BAnd => Some (Z.land x y) | BXor => Some (Z.lxor x y) | BOr => Some (Z.lor x y)
  | LAnd => truth (negb (x =? 0) && negb (y =? 0)) | LOr => truth (negb (x =? 0) || negb (y =? 0))
  end.
Definition apply1 (u : unop) (x : Z) : option Z :=
  match u with
  | Compl => Some (- x - 1) | Not => truth (x =? 0) | Minus => c64 (- x) | Plus => Some x
  end.

(** The value of an expression, [None] if it has none.  [&&] and [||] do not
    evaluate their right operand when the left one decides. *)
Fixpoint value (e : expr) : option Z :=
  match e with
  | ENum n => c64 n
  | EPar e => value e
  | EUn u e => match value e with Some x => apply1 u x | None => None end
  | EBin b e1 e2 =>
    match value e1 with
    | None => None
    | Some x =>
      match b with
      | LAnd => if x =? 0 then Some 0 else match value e2 with Some y => apply2 b x y | None => None end
      | LOr => if negb (x =? 0) then Some 1 else match value e2 with Some y => apply2 b x y | None => None end
      | _ => match value e2 with Some y => apply2 b x y | None => None end
      end
    end
  end.

(** Parts of an expression, itself included. *)
Fixpoint parts (e : expr) : list expr :=
  e :: match e with ENum _ => [] | EPar e => parts e | EUn _ e => parts e | EBin _ e1 e2 => parts e1 ++ parts e2 end.

(** No [!], and no unary operator in front of a parenthesis. *)
Definition unary_fine (e : expr) : Prop :=
  forall u e', In (EUn u e') (parts e) -> u <> Not /\ (forall e'', e' <> EPar e'').

(** How the tokens are handed over. *)
Definition bincode (b : binop) : Z :=
  match b with
  | Mul => TK_MULT | Div => TK_DIV | Rem => TK_MOD | Add => TK_ADD | Sub => TK_SUB | Shl => TK_L_SHIFT | Shr => TK_R_SHIFT
  | Lt => TK_LESS | Gt => TK_GREATER | Le => TK_LESS_EQ | Ge => TK_GREATER_EQ | Eq => TK_EQ | Ne => TK_NOT_EQ
  | BAnd => TK_BIT_AND | BXor => TK_XOR | BOr => TK_BIT_OR | LAnd => TK_AND | LOr => TK_OR
  end.
Definition as_piece (t : tok) : piece :=
  match t with
  | TNum n => PNumb n | TName => PName | TOpen => PTok TK_L_BOUND | TClose => PTok TK_R_BOUND
  | TBin b => PTok (bincode b) | TCompl => PTok TK_COMPL | TNot => PTok TK_NOT
  end.
(** [hands l ts]: the pieces of [l], at whatever places, are the tokens [ts]. *)
Definition hands (l : list (Z * piece)) (ts : list tok) : Prop := map snd l = map as_piece ts.
