(** How the pipe syntax is written: what its texts consist of, and which tokens that stands for. *)
From Coq Require Import String Ascii.
From Verif Require Export Model.TokensM.
Local Open Scope nat_scope.

Definition symbols : list (string * Tok) :=
  [("(", KLParen); (")", KRParen); ("{", KLBrace); ("}", KRBrace); ("[", KLBracket); ("]", KRBracket); (",", KComma); (";", KSemi); (":", KColon); ("::", KColonColon);
   ("=", KEq); ("==", KEqEq); ("!=", KNotEq); ("<", KLt); ("<=", KLtEq); (">", KGt); (">=", KGtEq); ("&&", KAndAnd); ("=>", KFatArrow);
   ("|", KPipe); ("+", KPlus); ("-", KMinus); ("*", KStar); ("$", KDollar); ("^", KCaret)]%string.
Definition reserved : list (string * Tok) :=
  [("input", KInput); ("import", KImport); ("key", KKey); ("map", KMap); ("join", KJoin); ("min", KMin); ("distinct", KDistinct); ("count", KCount); ("collect", KCollect);
   ("filter", KFilter); ("flatmap", KFlatMap); ("negate", KNegate); ("arrange", KArrange); ("inspect", KInspect); ("enter_at", KEnterAt); ("lift_iter", KLiftIter);
   ("let", KLet); ("var", KVar); ("export", KExport); ("con", KCon); ("case", KCase); ("fold", KFold)]%string.
Definition digits : list ascii := list_ascii_of_string "0123456789".
Definition letters : list ascii := list_ascii_of_string "abcdefghijklmnopqrstuvwxyzABCDEFGHIJKLMNOPQRSTUVWXYZ_".
Definition newline : ascii := "010".
Definition quote : ascii := """".
Definition blanks : list ascii := [" "; "009"; newline; "013"]%char.
(** the number that digits stand for *)
Fixpoint place_of (c : ascii) (l : list ascii) : nat := match l with [] => 0 | d :: l => if Ascii.eqb c d then 0 else S (place_of c l) end.
Fixpoint value (ds : list ascii) : N := match ds with [] => 0 | d :: ds => N.of_nat (place_of d digits) * 10 ^ N.of_nat (length ds) + value ds end%N.

(** What texts consist of: blanks, comments, symbols, quoted text, numbers and words. *)
Inductive lexeme : list ascii -> Prop :=
| w_blank c : In c blanks -> lexeme [c]
| w_comment b : ~ In newline b -> lexeme (list_ascii_of_string "--" ++ b)
| w_symbol s k : In (s, k) symbols -> lexeme (list_ascii_of_string s)
| w_quoted b : ~ In quote b -> lexeme (quote :: b ++ [quote])
| w_number ds : ds <> [] -> Forall (fun c => In c digits) ds -> lexeme ds
| w_word c w : In c letters -> Forall (fun c => In c (letters ++ digits)) w -> lexeme (c :: w).
(** The tokens they stand for: one, or none.  Numbers that do not fit 64 bits with a sign stand for nothing. *)
Inductive stands_for : list ascii -> list Tok -> Prop :=
| v_blank c : In c blanks -> stands_for [c] []
| v_comment b : ~ In newline b -> stands_for (list_ascii_of_string "--" ++ b) []
| v_symbol s k : In (s, k) symbols -> stands_for (list_ascii_of_string s) [k]
| v_quoted b : ~ In quote b -> stands_for (quote :: b ++ [quote]) [KStr (string_of_list_ascii b)]
| v_number ds : ds <> [] -> Forall (fun c => In c digits) ds -> (value ds < 2 ^ 63)%N -> stands_for ds [KInt (N.to_nat (value ds))]
| v_reserved c w k : In c letters -> Forall (fun c => In c (letters ++ digits)) w -> In (string_of_list_ascii (c :: w), k) reserved -> stands_for (c :: w) [k]
| v_name c w : In c letters -> Forall (fun c => In c (letters ++ digits)) w -> (forall k, ~ In (string_of_list_ascii (c :: w), k) reserved) ->
    stands_for (c :: w) [KIdent (string_of_list_ascii (c :: w))].
(** No longer one can be read there. *)
Definition longest (w s : list ascii) : Prop := forall w' s', lexeme w' -> w ++ s = w' ++ s' -> length w' <= length w.
Inductive tokens_of : list ascii -> list Tok -> Prop :=
| t_end : tokens_of [] []
| t_next w s ks ts : stands_for w ks -> longest w s -> tokens_of s ts -> tokens_of (w ++ s) (ks ++ ts).
