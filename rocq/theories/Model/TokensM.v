(** Model of [tokenize] of interactive/src/parse/pipe.rs: from text to tokens.

    Text is a list of bytes.  The code goes by characters, but it looks for no character beyond ASCII: bytes of
    others are kept in quotes, skipped in comments, and refused elsewhere, as those characters are.
    [None] is a panic, or that the fuel ran out: [tokenize] gives more than it needs. *)
From Coq Require Import String Ascii.
From Verif Require Export Model.PipeProgM.
Local Open Scope nat_scope.

(* is_ascii_digit, is_ascii_alphabetic: 109, 114, 116 *)
Definition is_digit (c : ascii) : bool := let n := nat_of_ascii c in (48 <=? n) && (n <=? 57).
Definition is_alpha (c : ascii) : bool := let n := nat_of_ascii c in ((65 <=? n) && (n <=? 90)) || ((97 <=? n) && (n <=? 122)) || (n =? 95).
Definition is_word (c : ascii) : bool := is_alpha c || is_digit c.
(* the loops of 111, 116: as long as the test holds *)
Fixpoint span (f : ascii -> bool) (s : list ascii) : list ascii * list ascii :=
  match s with c :: s' => if f c then let '(a, b) := span f s' in (c :: a, b) else ([], s) | [] => ([], []) end.
(* 74: to the end of the line, which is taken too *)
Fixpoint skip_line (s : list ascii) : list ascii := match s with c :: s => if Ascii.eqb c "010" then s else skip_line s | [] => [] end.
(* 97-104: up to the closing quote *)
Fixpoint quoted (s : list ascii) : option (list ascii * list ascii) :=
  match s with [] => None | c :: s => if Ascii.eqb c """" then Some ([], s) else ' (a, b) <- quoted s; Some (c :: a, b) end.
(* 112: an [i64], which must not overflow *)
Definition number (ds : list ascii) : N := fold_left (fun v c => (10 * v + N.of_nat (nat_of_ascii c - 48))%N) ds 0%N.
Definition parse_i64 (ds : list ascii) : option nat := if (number ds <? 9223372036854775808)%N then Some (N.to_nat (number ds)) else None.
(* 117-129 *)
Definition keywords : list (string * Tok) :=
  [("let", KLet); ("var", KVar); ("export", KExport); ("con", KCon); ("case", KCase); ("fold", KFold);
   ("input", KInput); ("import", KImport); ("key", KKey); ("map", KMap); ("join", KJoin); ("min", KMin); ("distinct", KDistinct);
   ("count", KCount); ("collect", KCollect); ("flatmap", KFlatMap); ("arrange", KArrange); ("negate", KNegate);
   ("filter", KFilter); ("enter_at", KEnterAt); ("inspect", KInspect); ("lift_iter", KLiftIter)]%string.
Definition word (s : string) : Tok := match lookup keywords s with Some k => k | None => KIdent s end.
(* 72 *)
Definition blank (c : ascii) : bool := Ascii.eqb c " " || Ascii.eqb c "009" || Ascii.eqb c "010" || Ascii.eqb c "013".
(* 76-84, 86-88, 93: characters that are tokens *)
Definition single (c : ascii) : option Tok :=
  match c with
  | "(" => Some KLParen | ")" => Some KRParen | "{" => Some KLBrace | "}" => Some KRBrace | "[" => Some KLBracket | "]" => Some KRBracket
  | "," => Some KComma | ";" => Some KSemi | "|" => Some KPipe | "+" => Some KPlus | "*" => Some KStar | "^" => Some KCaret | "$" => Some KDollar
  | _ => None
  end%char.
(* 85, 89-92, 107, 108: characters that look at the next: what they are with it, and by themselves *)
Definition double (c d : ascii) : option Tok :=
  match c, d with
  | "&", "&" => Some KAndAnd | "=", "=" => Some KEqEq | "=", ">" => Some KFatArrow | "!", "=" => Some KNotEq | "<", "=" => Some KLtEq | ">", "=" => Some KGtEq | ":", ":" => Some KColonColon
  | _, _ => None
  end%char.
Definition alone (c : ascii) : option Tok :=
  match c with "=" => Some KEq | "<" => Some KLt | ">" => Some KGt | ":" => Some KColon | "-" => Some KMinus | _ => None end%char.
(* 71-131: one turn of the loop: the tokens it adds, and the text after *)
Definition turn (s : list ascii) : option (list Tok * list ascii) :=
  match s with
  | [] => None
  | c :: s' =>
      if blank c then Some ([], s') else
      if Ascii.eqb c "-" && match s' with d :: _ => Ascii.eqb d "-" | [] => false end then Some ([], skip_line s) else
      match single c with
      | Some k => Some ([k], s')
      | None =>
          if Ascii.eqb c """" then ' (a, r) <- quoted s'; Some ([KStr (string_of_list_ascii a)], r) else
          match match s' with d :: _ => double c d | [] => None end with
          | Some k => Some ([k], tl s')
          | None =>
              match alone c with
              | Some k => Some ([k], s')
              | None =>
                  if is_digit c then let '(a, r) := span is_digit s in n <- parse_i64 a; Some ([KInt n], r) else
                  if is_alpha c then let '(a, r) := span is_word s in Some ([word (string_of_list_ascii a)], r) else None
              end
          end
      end
  end.
(* 67-136 *)
Fixpoint turns (n : nat) (s : list ascii) : option (list Tok) :=
  match n with
  | 0 => None
  | S n => match s with [] => Some [KEof] | _ => ' (ks, r) <- turn s; ts <- turns n r; Some (ks ++ ts) end
  end.
Definition tokenize (s : list ascii) : option (list Tok) := turns (S (length s)) s.
(* 498 *)
Definition parse_text (s : list ascii) : option (list Stmt) := ts <- tokenize s; parse ts.
