(** How a preprocessor expression is written: the spellings of its tokens (those
    of ComputerSpec.v), and what may stand between them. *)
From Verif Require Import Prelude ComputerSpec.
From Coq Require String. Import String.StringSyntax.
Local Open Scope string_scope. Local Open Scope list_scope. Local Open Scope Z_scope.

Definition chars (x : String.string) : list Z := map (fun a => Z.of_N (Ascii.N_of_ascii a)) (String.list_ascii_of_string x).

(** Letters are Latin or Russian, and the underscore. *)
Definition letter (c : Z) : bool :=
  ((65 <=? c) && (c <=? 90)) || ((97 <=? c) && (c <=? 122)) || (c =? 95)
  || ((1040 <=? c) && (c <=? 1103)) || (c =? 1025) || (c =? 1105).
Definition digit (c : Z) : bool := (48 <=? c) && (c <=? 57).
Definition word (w : list Z) : Prop :=
  match w with
  | c :: r => letter c = true /\ forallb (fun c => letter c || digit c) r = true
  | [] => False
  end.

(** ** Numbers: decimal, and 0x, 0o, 0b, 0d with either case of the letter. *)
Definition digit_value (c : Z) : Z :=
  if digit c then c - 48 else if (97 <=? c) && (c <=? 102) then c - 87 else if (65 <=? c) && (c <=? 70) then c - 55 else 99.
Definition in_base (base : Z) (ds : list Z) : Prop :=
  ds <> [] /\ Forall (fun c => digit_value c < base) ds.
Definition number (base : Z) (ds : list Z) : Z := fold_left (fun a c => base * a + digit_value c) ds 0.
Definition lower (c : Z) : Z := if (65 <=? c) && (c <=? 90) then c + 32 else c.
(** Sizes may follow a number. *)
Definition suffix (w : list Z) : Prop :=
  In (map lower w) (map chars [""; "u"; "l"; "ul"; "lu"; "ll"; "ull"; "llu"]).
Definition prefixes : list (Z * list Z) :=
  [(16, chars "0x"); (16, chars "0X"); (8, chars "0o"); (8, chars "0O"); (2, chars "0b"); (2, chars "0B"); (10, chars "0d"); (10, chars "0D")].

Inductive decimal : Z -> list Z -> Prop :=
| sn_plain ds sfx : in_base 10 ds -> number 10 ds < 2 ^ 63 -> suffix sfx -> decimal (number 10 ds) (ds ++ sfx).
Inductive prefixed : Z -> list Z -> Prop :=
| sn_prefixed base pre ds sfx : In (base, pre) prefixes -> in_base base ds -> number base ds < 2 ^ 63 ->
    (base = 2 -> zlen ds <= 99) -> suffix sfx -> prefixed (number base ds) (pre ++ ds ++ sfx).

(** ** Operators *)
Definition bin_text (b : binop) : list Z :=
  chars match b with
        | Mul => "*" | Div => "/" | Rem => "%" | Add => "+" | Sub => "-" | Shl => "<<" | Shr => ">>"
        | Lt => "<" | Gt => ">" | Le => "<=" | Ge => ">=" | Eq => "==" | Ne => "!="
        | BAnd => "&" | BXor => "^" | BOr => "|" | LAnd => "&&" | LOr => "||"
        end.
(** Every operator of C: the longest which fits is meant. *)
Definition operators : list (list Z) :=
  map chars ["("; ")"; "~"; "!"; "*"; "/"; "%"; "+"; "-"; "<<"; ">>"; "<"; ">"; "<="; ">="; "=="; "!="; "&"; "^"; "|"; "&&"; "||";
             "="; "*="; "/="; "%="; "+="; "-="; "<<="; ">>="; "&="; "^="; "|="; "++"; "--"; "//"; "/*"].

(** A token as it is written in a directive. *)
Inductive simple : tok -> list Z -> Prop :=
| s_open : simple TOpen (chars "(")
| s_close : simple TClose (chars ")")
| s_compl : simple TCompl (chars "~")
| s_not : simple TNot (chars "!")
| s_bin b : simple (TBin b) (bin_text b).
Inductive spells : tok -> list Z -> Prop :=
| sp_decimal n w : decimal n w -> spells (TNum n) w
| sp_prefixed n w : prefixed n w -> spells (TNum n) w
| sp_char c : ~ In c [39; 92; 10; 13] -> spells (TNum c) [39; c; 39]
| sp_simple t w : simple t w -> spells t w.

(** What follows does not belong to it. *)
Definition ends_here (w rest : list Z) : Prop :=
  match rest with
  | [] => True
  | c :: _ =>
      (In w operators -> ~ exists c', In (w ++ c :: c') operators)
      /\ (forall a r, w = a :: r -> letter a = true \/ digit a = true -> letter c = false /\ digit c = false /\ c <> 46)
  end.

(** ** Between tokens: blanks, comments, continued lines. *)
Inductive gap : list Z -> Prop :=
| g_none : gap []
| g_blank c g : c = 32 \/ c = 9 -> gap g -> gap (c :: g)
| g_line g : gap g -> gap (92 :: 10 :: g)
| g_comment b g : (forall u v, b ++ [42; 47] = u ++ [42; 47] ++ v -> v = []) -> gap g -> gap ([47; 42] ++ b ++ [42; 47] ++ g).
(** The lines of a comment: a back slash at the end of a line continues it. *)
Definition continued (b : list Z) : Prop :=
  ~ In 13 b /\ (forall u v, b = u ++ 10 :: v -> exists u', u = u' ++ [92]) /\ (forall u, b <> u ++ [92]).
(** The end of the text, or of the line; a comment may stand there. *)
Inductive over : list Z -> Prop :=
| o_end : over []
| o_line s : over (10 :: s)
| o_comment b s : continued b -> s = [] \/ (exists s', s = 10 :: s') -> over ([47; 47] ++ b ++ s).

(** Nothing is written. *)
Definition blank (s : list Z) : Prop := exists g r, gap g /\ over r /\ s = g ++ r.

(** ** The tokens of a text, each with its place
    [value_reads p s l]: the text [s] of the value of a macro called at [p]; every name
    counts as one which is no macro, and no word or number follows a nought. *)
Inductive value_gap : list Z -> Prop :=
| vg_gap g : gap g -> value_gap g
| vg_line g g' : gap g -> value_gap g' -> value_gap (g ++ 10 :: g').
Inductive value_reads (p : Z) : list Z -> list (Z * tok) -> Prop :=
| v_over g : value_gap g -> value_reads p g []
| v_name g w s l : value_gap g -> word w -> ends_here w s -> value_reads p s l -> value_reads p (g ++ w ++ s) ((p, TName) :: l)
| v_number g n w s l : value_gap g -> decimal n w -> ends_here w s ->
    (n = 0 -> forall g' s', gap g' -> s = g' ++ s' -> ends_here w s') -> value_reads p s l -> value_reads p (g ++ w ++ s) ((p, TNum n) :: l)
| v_char g c s l : value_gap g -> ~ In c [39; 92; 10; 13] -> value_reads p s l -> value_reads p (g ++ [39; c; 39] ++ s) ((p, TNum c) :: l)
| v_simple g t w s l : value_gap g -> simple t w -> ends_here w s -> value_reads p s l -> value_reads p (g ++ w ++ s) ((p, t) :: l).

Section Macros.
(** The macros, as the preprocessor replaces them: the name and what follows it,
    the value and what follows the call. *)
Variable replace : list Z -> list Z -> option (option (list Z * list Z)).
Definition eval_names : list (list Z) :=
  [chars "eval"; chars "EVAL"; [1074; 1099; 1095; 1080; 1089; 1083; 1080; 1090; 1100]; [1042; 1067; 1063; 1048; 1057; 1051; 1048; 1058; 1068]].
(** [total] is where the whole text ends; what is left after the tokens is [fin]. *)
Variable fin : list Z -> Prop.
Inductive reads (total : Z) : list Z -> list (Z * tok) -> Prop :=
| r_fin g s : gap g -> fin s -> reads total (g ++ s) []
| r_token g t w s l : gap g -> spells t w -> ends_here w s -> reads total s l ->
    reads total (g ++ w ++ s) ((total - zlen (w ++ s), t) :: l)
| r_name g w s l : gap g -> word w -> ends_here w s -> replace w s = None -> reads total s l ->
    reads total (g ++ w ++ s) ((total - zlen (w ++ s), TName) :: l)
| r_macro g w s v s' lv l : gap g -> word w -> ends_here w s -> replace w s = Some (Some (v, s')) ->
    value_reads (total - zlen (w ++ s)) v lv -> reads total s' l -> reads total (g ++ w ++ s) (lv ++ l)
| r_eval g g' w s l : gap g -> gap g' -> In w eval_names -> ends_here w s -> reads total s l ->
    reads total (g ++ 35 :: g' ++ w ++ s) l.
End Macros.

(** ** What is no token, and the message for it *)
Inductive fault := NotAToken | NotWhole | BadSuffix | NotClosed.
(** After blanks and comments a token or the end follows. *)
Definition goes_on (s : list Z) : Prop :=
  exists g r, gap g /\ s = g ++ r
    /\ (over r \/ exists c t, r = c :: t /\ ~ In c [32; 9; 13; 92] /\ (c = 47 -> forall d t', t = d :: t' -> d <> 42 /\ d <> 47)).
(** What stands between two quotes [q]: a back slash takes the character after it
    along, be it a quote or the end of the line. *)
Inductive inside (q : Z) : list Z -> Prop :=
| in_nil : inside q []
| in_char c b : ~ In c [q; 92; 10; 13] -> inside q b -> inside q (c :: b)
| in_pair c b : c <> 13 -> inside q b -> inside q (92 :: c :: b).
Inductive bad : fault -> list Z -> Prop :=
| b_assign s : (forall s', s <> 61 :: s') -> goes_on s -> bad NotAToken (61 :: s)
| b_operator w s : In w (map chars ["*="; "/="; "%="; "+="; "-="; "<<="; ">>="; "&="; "^="; "|="; "++"; "--"]) -> bad NotAToken (w ++ s)
| b_other c s : 0 <= c -> letter c = false -> digit c = false ->
    ~ In c (chars "()~!*/%+-<>=&^|#.'""" ++ [10; 9; 13; 32; 92]) -> goes_on s -> bad NotAToken (c :: s)
| b_string b s : inside 34 b -> bad NotAToken (34 :: b ++ 34 :: s)
| b_open q b s : In q [34; 39] -> inside q b -> s = [] \/ (exists s', s = 10 :: s') -> bad NotClosed (q :: b ++ s)
| b_word g w s : gap g -> word w -> ends_here w s -> ~ In w eval_names -> bad NotAToken (35 :: g ++ w ++ s)
| b_whole ds c s : in_base 10 ds -> number 10 ds < 2 ^ 63 -> In c (chars ".eE") -> bad NotWhole (ds ++ c :: s)
| b_point s : bad NotWhole (46 :: s)
| b_suffix ds c w s : in_base 10 ds -> number 10 ds < 2 ^ 63 -> word (c :: w) -> ends_here (c :: w) s -> ~ suffix (c :: w) ->
    ~ In c (chars "eE") -> (ds = [48] -> ~ In c (chars "xXoObBdD")) -> bad BadSuffix (ds ++ (c :: w) ++ s).
