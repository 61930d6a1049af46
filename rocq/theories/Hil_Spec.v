(** Specification of the Hexed Interface Language after doc/hil.dox: what string literals denote, what expression trees
    evaluate to, and which texts are ways of writing a tree. Only the characters, the operator symbols and the host are shared with the model. *)
From Coq Require Import List ZArith Bool Ascii String.
From Verif Require Import Namespace_Model Namespace_Spec Hil_Model.
Import ListNotations.
Open Scope list_scope.
Local Open Scope char_scope.

(** ** String literals (doc/hil.dox, section Types and Literals) *)
(** [literal body s]: the text [body] between the outer braces denotes the string [s]. Matched braces are included
    literally, a backslash gives the next character literally. *)
Inductive literal : str -> str -> Prop :=
| LitNil : literal [] []
| LitChar c body s : c <> "{" -> c <> "}" -> c <> "\" -> literal body s -> literal (c :: body) (c :: s)
| LitEscape c body s : literal body s -> literal ("\" :: c :: body) (c :: s)
| LitBraces b1 s1 b2 s2 : literal b1 s1 -> literal b2 s2 -> literal ("{" :: b1 ++ "}" :: b2) ("{" :: s1 ++ "}" :: s2).

(** escaping every brace and backslash *)
Fixpoint escape (s : str) : str :=
  match s with
  | [] => []
  | c :: s' => if (c =? "{") || (c =? "}") || (c =? "\") then "\" :: c :: escape s' else c :: escape s'
  end.

(** ** Expression trees *)
Inductive expr :=
| ENum (z : Z)                      (** integer literal *)
| EFloat (t : str)                  (** float literal, by its text *)
| EText (s : str)                   (** string literal, by what it denotes *)
| EVar (n : str)
| EUn (u : unop) (e : expr)
| EBin (b : binop) (e1 e2 : expr)
| EAsg (n : str) (e : expr)         (** assignment *)
| ESeq (e1 e2 : expr).              (** two statements *)

(** ** Meaning of trees *)
Section Meaning.
Variable H : host.
Notation tv := (tvalue (D H)).

(** result of evaluating a tree: variables, outside world and value; an exception of the language; another C++ exception;
    or undefined *)
Inductive sres (A : Type) :=
| SOk (x : space (D H)) (w : W H) (a : A)
| SHil (x : space (D H)) (w : W H)
| SExc (x : space (D H)) (w : W H)
| SUndef
| SSilent.   (** this specification says nothing *)
Arguments SOk {A}. Arguments SHil {A}. Arguments SExc {A}. Arguments SUndef {A}. Arguments SSilent {A}.

Definition sbind {A B} (r : sres A) (k : space (D H) -> W H -> A -> sres B) : sres B :=
  match r with
  | SOk x w a => k x w a
  | SHil x w => SHil x w
  | SExc x w => SExc x w
  | SUndef => SUndef
  | SSilent => SSilent
  end.

Definition fits (z : Z) : bool := ((-2147483648 <=? z) && (z <=? 2147483647))%Z.
Definition ret_int (z : Z) x w : sres tv := if fits z then SOk x w (VInt z) else SUndef.
Definition truth (b : bool) : Z := if b then 1%Z else 0%Z.
(** numbers as floats *)
Definition as_float (v : tv) : option (D H) := match v with VInt z => Some (d_of_int H z) | VDbl d => Some d | VStr _ => None end.

(** reading a variable *)
Definition read_entry (e : entry (D H)) x w : sres tv :=
  match e with
  | EInt (Value z) => SOk x w (VInt z)
  | EInt (Heisenberg k) => let (r, w') := w_int H k w in match r with Some z => SOk x w' (VInt z) | None => SExc x w' end
  | EDbl (Value z) => SOk x w (VDbl z)
  | EDbl (Heisenberg k) => let (r, w') := w_dbl H k w in match r with Some z => SOk x w' (VDbl z) | None => SExc x w' end
  | EStr (Value z) => SOk x w (VStr z)
  | EStr (Heisenberg (CbHost k)) => let (r, w') := w_str H k w in match r with Some z => SOk x w' (VStr z) | None => SExc x w' end
  | EStr (Heisenberg CbThrow) => SExc x w
  | EStr (Heisenberg CbExit) => SUndef
  end.
(** the variable a name stands for; see the theorems for C05 for what [find_int] etc. find *)
Definition variable_of (n : str) (x : space (D H)) : option (entry (D H)) :=
  match find_int n x, find_dbl n x, find_str n x with
  | Some v, _, _ => Some (EInt v)
  | None, Some (inl v), _ => Some (EDbl v)
  | None, Some (inr v), _ => Some (EInt v)
  | None, None, Some v => Some (EStr v)
  | None, None, None => None
  end.
Definition read_var (n : str) x w : sres tv :=
  if exists_recursive x n then match variable_of n x with Some e => read_entry e x w | None => SHil x w end else SHil x w.

(** conversion of a value to a string; floats are converted with the format in the variable [format_double], which is assumed
    to be an ordinary variable (the constructor of the interpreter makes it one) *)
Definition text_of (v : tv) (fd : str) x w : sres str :=
  match v with
  | VInt z => SOk x w (to_string z)
  | VDbl d => match d_format H fd d with FmtOk t => SOk x w t | FmtThrow => SExc x w | FmtUb => SUndef end
  | VStr t => SOk x w t
  end.
Definition with_format (x : space (D H)) (w : W H) (k : str -> space (D H) -> W H -> sres tv) : sres tv :=
  match find_str (s_ "format_double") x with
  | Some (Value fd) => k fd x w
  | Some (Heisenberg _) => SSilent
  | None => SExc x w
  end.
Definition concat (v1 v2 : tv) x w : sres tv :=
  with_format x w (fun fd x w => sbind (text_of v1 fd x w) (fun x w t1 => sbind (text_of v2 fd x w) (fun x w t2 => SOk x w (VStr (t1 ++ t2))))).

(** [a ^ b] for integers: exact power; truncated toward zero for negative exponents *)
Definition int_power (a b : Z) x w : sres tv :=
  if (0 <=? b)%Z then ret_int (a ^ b) x w
  else if (a =? 0)%Z then SUndef else SOk x w (VInt (if (Z.abs a =? 1)%Z then a ^ (- b) else 0)).

Definition arith (o : darith) (v1 v2 : tv) x w : sres tv :=
  match v1, v2 with
  | VInt a, VInt b =>
      match o with
      | DAdd => ret_int (a + b) x w
      | DSub => ret_int (a - b) x w
      | DMul => ret_int (a * b) x w
      | DDiv => if (b =? 0)%Z then SUndef else ret_int (Z.quot a b) x w
      | DPow => int_power a b x w
      end
  | _, _ =>
      match as_float v1, as_float v2 with
      | Some a, Some b => SOk x w (VDbl (d_arith H o a b))
      | _, _ => SHil x w
      end
  end.
Definition compare_ints (c : dcmp) (a b : Z) : bool :=
  match c with
  | CEq => Z.eqb a b | CGe => Z.leb b a | CLe => Z.leb a b | CLt => Z.ltb a b | CGt => Z.ltb b a
  | CAnd => negb (Z.eqb a 0) && negb (Z.eqb b 0)
  | COr => negb (Z.eqb a 0 && Z.eqb b 0)
  end.
Definition compare_num (c : dcmp) (v1 v2 : tv) x w : sres tv :=
  match v1, v2 with
  | VInt a, VInt b => SOk x w (VInt (truth (compare_ints c a b)))
  | _, _ =>
      match as_float v1, as_float v2 with
      | Some a, Some b => SOk x w (VInt (truth (d_cmp H c a b)))
      | _, _ => SHil x w
      end
  end.
Definition equal (v1 v2 : tv) x w : sres tv :=
  match v1, v2 with
  | VStr a, VStr b => SOk x w (VInt (truth (str_eqb a b)))
  | _, _ => compare_num CEq v1 v2 x w
  end.

(** doc/hil.dox, table of operators *)
Definition bin_sem (b : binop) (v1 v2 : tv) x w : sres tv :=
  match b with
  | BPow => arith DPow v1 v2 x w
  | BDiv => arith DDiv v1 v2 x w
  | BMul => arith DMul v1 v2 x w
  | BSub => arith DSub v1 v2 x w
  | BAdd => match v1, v2 with VStr _, _ | _, VStr _ => concat v1 v2 x w | _, _ => arith DAdd v1 v2 x w end
  | BMod => match v1, v2 with
            | VInt a, VInt b => if (b =? 0)%Z then SUndef else if fits (Z.quot a b) then SOk x w (VInt (Z.rem a b)) else SUndef
            | _, _ => SHil x w
            end
  | BIndex => match v1, v2 with
              | VStr t, VInt i => if ((0 <=? i) && (i <=? Z.of_nat (List.length t)))%Z then SOk x w (VStr [nth (Z.to_nat i) t NUL]) else SUndef
              | _, _ => SHil x w
              end
  | BEq => equal v1 v2 x w
  | BNe => sbind (equal v1 v2 x w) (fun x w r => match r with VInt z => SOk x w (VInt (1 - z)) | _ => SUndef end)
  | BGe => compare_num CGe v1 v2 x w
  | BLe => compare_num CLe v1 v2 x w
  | BLt => compare_num CLt v1 v2 x w
  | BGt => compare_num CGt v1 v2 x w
  | BAnd => compare_num CAnd v1 v2 x w
  | BOr => compare_num COr v1 v2 x w
  end.

Definition float_fun (f : dfun) (v : tv) x w : sres (D H) :=
  match as_float v with Some d => SOk x w (d_fun H f d) | None => SHil x w end.
Definition print_sem (v : tv) (suffix : str) x w : sres tv :=
  with_format x w (fun fd x w => sbind (text_of v fd x w) (fun x w t => SOk x (w_print H (t ++ suffix) w) (VStr []))).
Definition un_sem (u : unop) (v : tv) x w : sres tv :=
  match u with
  | UNeg => match v with VInt z => ret_int (- z) x w | VDbl d => SOk x w (VDbl (d_neg H d)) | VStr _ => SHil x w end
  | UNot => match v with VInt z => SOk x w (VInt (truth (z =? 0)%Z)) | _ => SHil x w end
  | USize => match v with VStr t => SOk x w (VInt (Z.of_nat (List.length t))) | _ => SHil x w end
  | UAbs => match v with VInt z => ret_int (Z.abs z) x w | VDbl d => SOk x w (VDbl (d_abs H d)) | VStr _ => SExc x w end
  | URound => sbind (float_fun FRound v x w) (fun x w d => SOk x w (VInt (d_lround H d)))
  | UFloor => sbind (float_fun FFloor v x w) (fun x w d => SOk x w (VInt (d_lround H (d_fun H FRound d))))
  | UCeil => sbind (float_fun FCeil v x w) (fun x w d => SOk x w (VInt (d_lround H (d_fun H FRound d))))
  | URead => match v with VStr t => match w_read H t w with Some y => SOk x w (VStr y) | None => SHil x w end | _ => SHil x w end
  | UPrint => print_sem v [] x w
  | UPrintln => print_sem v [LF] x w
  | UShell => match v with VStr t => let (z, w') := w_shell H t w in SOk x w' (VInt z) | _ => SHil x w end
  | USqrt => sbind (float_fun FSqrt v x w) (fun x w d => SOk x w (VDbl d))
  | UExp => sbind (float_fun FExp v x w) (fun x w d => SOk x w (VDbl d))
  | ULog => sbind (float_fun FLog v x w) (fun x w d => SOk x w (VDbl d))
  | USin => sbind (float_fun FSin v x w) (fun x w d => SOk x w (VDbl d))
  | UCos => sbind (float_fun FCos v x w) (fun x w d => SOk x w (VDbl d))
  | UTan => sbind (float_fun FTan v x w) (fun x w d => SOk x w (VDbl d))
  | UAsin => sbind (float_fun FAsin v x w) (fun x w d => SOk x w (VDbl d))
  | UAcos => sbind (float_fun FAcos v x w) (fun x w d => SOk x w (VDbl d))
  | UAtan => sbind (float_fun FAtan v x w) (fun x w d => SOk x w (VDbl d))
  end.

Fixpoint sem (e : expr) (x : space (D H)) (w : W H) : sres tv :=
  match e with
  | ENum z => if fits z then SOk x w (VInt z) else SHil x w
  | EFloat t => match d_stod H t with Some d => SOk x w (VDbl d) | None => SHil x w end
  | EText t => SOk x w (VStr t)
  | EVar n => read_var n x w
  | EUn u e => sbind (sem e x w) (fun x w v => un_sem u v x w)
  | EBin b e1 e2 => sbind (sem e1 x w) (fun x w v1 => sbind (sem e2 x w) (fun x w v2 => bin_sem b v1 v2 x w))
  | EAsg n e => sbind (sem e x w) (fun x w v => match assign_t (d_of_int H) n v x with Some x' => SOk x' w v | None => SExc x w end)
  | ESeq e1 e2 => sbind (sem e1 x w) (fun x w _ => sem e2 x w)
  end.

(** the interpreter's representation of a value: exactly one of the three members is set *)
Definition dyn_of (v : tv) : dyn H := match v with VInt z => dyn_i H z | VDbl d => dyn_d H d | VStr t => dyn_s H t end.
End Meaning.
Arguments SOk {H A}. Arguments SHil {H A}. Arguments SExc {H A}. Arguments SUndef {H A}. Arguments SSilent {H A}.

(** ** Ways of writing a tree *)
Definition blanks (b : str) : Prop := Forall (fun c => c = " ") b.
Definition separator (c : ascii) : bool := (c =? LF) || (c =? ";").
(** text between statements: blanks, newlines and semicolons *)
Definition gap (g : str) : Prop := Forall (fun c => c = " " \/ separator c = true) g.

(** variable names: letters, digits and underscores, not starting with a digit, and not the name of an operator *)
Definition name (n : str) : Prop :=
  exists c n', n = c :: n' /\ is_name_char c = true /\ is_digit c = false /\ Forall (fun c => is_name_char c = true) n' /\
  forall u, n <> un_name u.

(** value of a sequence of digits *)
Fixpoint decimal (acc : Z) (t : str) : Z :=
  match t with [] => acc | c :: t' => decimal (10 * acc + (Z.of_nat (nat_of_ascii c) - 48)) t' end.

(** Text of a float literal: digits, points, exponents; a sign only after the letter e; at least one character that is not a
    digit; beginning with a digit or a point and not ending with the letter e or a sign. *)
Fixpoint float_chars (prev : ascii) (t : str) : Prop :=
  match t with
  | [] => is_digit prev = true \/ prev = "."
  | c :: t' => (is_digit c = true \/ c = "." \/ c = "e" \/ c = "E" \/ ((c = "-" \/ c = "+") /\ (prev = "e" \/ prev = "E"))) /\ float_chars c t'
  end.
Definition float_text (t : str) : Prop :=
  exists c t', t = c :: t' /\ (is_digit c = true \/ c = ".") /\ float_chars c t' /\ exists d, In d t /\ is_digit d = false.

(** levels: 1 to 5 as in the manual for binary operators, -1 for everything that needs no parentheses anywhere,
    6 for assignments, 7 for sequences of statements *)
Definition starts_name (t : str) : Prop := exists c t', t = c :: t' /\ is_name_char c = true.
Definition starts_op (t : str) : Prop := exists t', t = "-" :: t' \/ t = "#" :: t'.

Inductive writes : Z -> expr -> str -> Prop :=
| WNum t : t <> [] -> Forall (fun c => is_digit c = true) t -> writes (-1) (ENum (decimal 0 t)) t
| WFloat t : float_text t -> writes (-1) (EFloat t) t
| WText s body : literal body s -> writes (-1) (EText s) ("{" :: body ++ ["}"])
| WVar n : name n -> writes (-1) (EVar n) n
| WUn u e b t : blanks b -> writes (-1) e t -> (is_name_char (hd NUL (un_name u)) = true -> b <> [] \/ ~ starts_name t) ->
    writes (-1) (EUn u e) (un_name u ++ b ++ t)
| WBin o l1 l2 e1 e2 t1 t2 b1 b2 :                     (* equal levels associate to the left *)
    writes l1 e1 t1 -> writes l2 e2 t2 -> (l1 <= op_prec o)%Z -> (l2 < op_prec o)%Z -> blanks b1 -> blanks b2 ->
    writes (op_prec o) (EBin o e1 e2) (t1 ++ b1 ++ op_name o ++ b2 ++ t2)
| WParen l e b1 t b2 : writes l e t -> blanks b1 -> blanks b2 -> writes (-1) e ("(" :: b1 ++ t ++ b2 ++ [")"])
| WAsg n l e t b1 b2 : name n -> writes l e t -> (l <= 6)%Z -> blanks b1 -> blanks b2 ->
    writes 6 (EAsg n e) (n ++ b1 ++ "=" :: b2 ++ t)
| WSeq l1 l2 e1 e2 t1 t2 g1 c g2 :   (* the second statement does not start with an operator character *)
    writes l1 e1 t1 -> writes l2 e2 t2 -> gap g1 -> separator c = true -> gap g2 -> ~ starts_op t2 ->
    writes 7 (ESeq e1 e2) (t1 ++ g1 ++ c :: g2 ++ t2)
| WLead l e g t : writes l e t -> gap g -> ~ starts_op t -> writes 7 e (g ++ t)
| WTrail l e t g : writes l e t -> gap g -> writes 7 e (t ++ g).

(** ** Texts and programs *)
(** a text whose last token could be continued by what follows: it ends with a letter, digit, underscore or point *)
Definition open_end (t : str) : bool := is_name_char (last t NUL) || (last t NUL =? ".").
(** the text [y] does not change the last token of [t], and does not turn it into the left hand side of an assignment *)
Definition separated (t y : str) : Prop := open_end t = true ->
  (forall c y', y = c :: y' -> is_name_char c = false /\ c <> ".") /\
  (forall b y', blanks b -> y = b ++ "=" :: y' -> exists y'', y' = "=" :: y'').

(** for all large enough values of the fuel the result is [r]; [r] = [RFuel] means running forever *)
Definition runs {A} (k : nat -> A) (r : A) : Prop := exists n, forall f, (n <= f)%nat -> k f = r.

(** [defused x x']: the variables [x'] are [x], except that reading an [exit] variable throws an exception *)
Definition defuse (v : variable str str_callback) : variable str str_callback := match v with Heisenberg CbExit => Heisenberg CbThrow | _ => v end.
Inductive defused {D} : space D -> space D -> Prop :=
| Defused x x' : (forall n, ints x' n = ints x n) -> (forall n, dbls x' n = dbls x n) -> (forall n, strs x' n = option_map defuse (strs x n)) ->
    Forall2 defused (supers x) (supers x') -> defused x x'.

(** ** The table of operators of the manual: doc/hil.dox, lines 92-130 *)
Local Open Scope string_scope.
Definition manual_unary : list (unop * string) :=
  [(UNeg, "-"); (UNot, "!"); (USize, "#"); (USqrt, "sqrt"); (UExp, "exp"); (ULog, "log"); (USin, "sin"); (UCos, "cos"); (UTan, "tan");
   (UAsin, "asin"); (UAcos, "acos"); (UAtan, "atan"); (UFloor, "floor"); (UCeil, "ceil"); (URound, "round"); (UAbs, "abs");
   (URead, "read"); (UPrint, "print"); (UPrintln, "println"); (UShell, "shell")].
Definition manual_binary : list (binop * string * Z) :=
  [(BPow, "^", 1%Z); (BIndex, "#", 1%Z); (BMod, "%", 2%Z); (BDiv, "/", 2%Z); (BMul, "*", 2%Z); (BSub, "-", 3%Z); (BAdd, "+", 3%Z);
   (BEq, "==", 4%Z); (BNe, "!=", 4%Z); (BGe, ">=", 4%Z); (BLe, "<=", 4%Z); (BGt, ">", 4%Z); (BLt, "<", 4%Z); (BAnd, "&", 5%Z); (BOr, "|", 5%Z)].
