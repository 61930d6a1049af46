(** Model of the interpreter of the Hexed Interface Language: src/Interpreter.cpp, include/Interpreter.hpp.

    The text being executed is a list of characters ([std::list<char> _text]); inspecting or removing a character of an
    empty text is undefined behaviour and is kept as a separate outcome. [_eval] is written as two mutually recursive
    functions on explicit fuel: [eval] for the outer loop and [binops] for the loop over binary operators.

    Simplifications:
    - floating-point numbers and everything outside the interpreter (standard output and input, files, the shell, the
      callbacks of Heisenberg variables, the wording of error messages) are an arbitrary [host]; theorems hold for every host;
    - callbacks do not call the interpreter they belong to;
    - names, literals and file names appearing in error messages are short enough for the buffers of [format_str] (1000);
    - [std::isalpha] and [std::isdigit] are those of the C locale;
    - strings and texts are shorter than 2^31 characters; memory is unlimited;
    - the mutex taken by [exec] is not modelled (one thread). *)
From Coq Require Import List ZArith Bool Ascii String.
From Verif Require Import Outcome Math_Model Namespace_Model.
Import ListNotations.
Open Scope list_scope.
Local Open Scope char_scope.

(** ** Characters *)
Definition code (c : ascii) : nat := nat_of_ascii c.
Definition NUL : ascii := "000".
Definition LF : ascii := "010".
Definition is_digit (c : ascii) : bool := ((48 <=? code c) && (code c <=? 57))%nat.
Definition is_alpha (c : ascii) : bool := (((65 <=? code c) && (code c <=? 90)) || ((97 <=? code c) && (code c <=? 122)))%nat.
Definition is_name_char (c : ascii) : bool := is_alpha c || is_digit c || (c =? "_").
(** [std::tolower(c) == 'e'] *)
Definition is_e (c : ascii) : bool := (c =? "e") || (c =? "E").

(** ** Operators *)
(** src/Interpreter.cpp:243-299: keys of [_un_ops] *)
Inductive unop := UNeg | UNot | USize | USqrt | UExp | ULog | USin | UCos | UTan | UAsin | UAcos | UAtan
                | URound | UFloor | UCeil | UAbs | URead | UPrint | UPrintln | UShell.
Definition un_name (u : unop) : str :=
  s_ match u with
  | UNeg => "-" | UNot => "!" | USize => "#" | USqrt => "sqrt" | UExp => "exp" | ULog => "log" | USin => "sin" | UCos => "cos"
  | UTan => "tan" | UAsin => "asin" | UAcos => "acos" | UAtan => "atan" | URound => "round" | UFloor => "floor"
  | UCeil => "ceil" | UAbs => "abs" | URead => "read" | UPrint => "print" | UPrintln => "println" | UShell => "shell"
  end%string.
Definition all_unops : list unop := [UNeg; UNot; USize; USqrt; UExp; ULog; USin; UCos; UTan; UAsin; UAcos; UAtan;
                                     URound; UFloor; UCeil; UAbs; URead; UPrint; UPrintln; UShell].
(** [_un_ops.count], [_un_ops.at] *)
Definition find_unop (n : str) : option unop := find (fun u => str_eqb (un_name u) n) all_unops.

(** src/Interpreter.cpp:300-321: keys and precedences of [_bin_ops] *)
Inductive binop := BPow | BIndex | BMod | BDiv | BMul | BSub | BAdd | BEq | BNe | BGe | BLe | BLt | BGt | BAnd | BOr.
Definition op_name (b : binop) : str :=
  s_ match b with
  | BPow => "^" | BIndex => "#" | BMod => "%" | BDiv => "/" | BMul => "*" | BSub => "-" | BAdd => "+" | BEq => "==" | BNe => "!="
  | BGe => ">=" | BLe => "<=" | BLt => "<" | BGt => ">" | BAnd => "&" | BOr => "|"
  end%string.
Definition op_prec (b : binop) : Z :=
  match b with
  | BPow | BIndex => 1
  | BMod | BDiv | BMul => 2
  | BSub | BAdd => 3
  | BEq | BNe | BGe | BLe | BLt | BGt => 4
  | BAnd | BOr => 5
  end%Z.
(** in the order of the keys of the map *)
Definition all_binops : list binop := [BNe; BIndex; BMod; BAnd; BMul; BAdd; BSub; BDiv; BLt; BLe; BEq; BGt; BGe; BPow; BOr].

(** ** The outside world *)
Inductive dfun := FSqrt | FExp | FLog | FSin | FCos | FTan | FAsin | FAcos | FAtan | FRound | FFloor | FCeil.
Inductive darith := DAdd | DSub | DMul | DDiv | DPow.
Inductive dcmp := CEq | CGe | CLe | CLt | CGt | CAnd | COr.
(** result of [format_str(300, fd, x)], include/utils.hpp:17-25: the string, an exception (encoding error or string too long), or
    undefined behaviour (the format, which is the value of a HIL variable, does not fit the argument) *)
Inductive formatted := FmtOk (x : str) | FmtThrow | FmtUb.
(** the assertions that raise a [Hil_exception] *)
Inductive msg := MSubst | MNumber | MStringEnd | MUndefined | MParse | MMod | MArith | MCompare | MEq | MNeg | MNot | MSize
               | MNumericUnary | MRead | MReadFile | MShell | MIndex.

Record host := Host {
  D : Type;                                  (** [double] *)
  W : Type;                                  (** everything outside *)
  d_of_int : Z -> D;                         (** conversion of [int] *)
  d_arith : darith -> D -> D -> D;           (** [+ - * /] and [std::pow] *)
  d_cmp : dcmp -> D -> D -> bool;
  d_neg : D -> D;                            (** [*= -1] *)
  d_abs : D -> D;
  d_fun : dfun -> D -> D;
  d_lround : D -> Z;                         (** [(int)std::lround(x)] *)
  d_stod : str -> option D;                  (** [std::stod]; [None] if it throws *)
  d_format : str -> D -> formatted;
  d_huge : D;
  w_print : str -> W -> W;                   (** [printer->print] *)
  w_read : str -> W -> option str;           (** contents of a file *)
  w_shell : str -> W -> Z * W;               (** [std::system] *)
  w_int : nat -> W -> option Z * W;          (** callbacks of Heisenberg variables; [None] if the callback throws *)
  w_dbl : nat -> W -> option D * W;
  w_str : nat -> W -> option str * W;
  w_message : msg -> str -> str              (** text of the message given the assertion and the remaining program *)
}.

(** ** Numbers and text *)
(** [std::stoi] applied to a string of digits; [None] if it throws (out of range) *)
Definition digit_val (c : ascii) : Z := Z.of_nat (code c - 48).
Definition stoi (t : str) : option Z :=
  let z := fold_left (fun acc c => acc * 10 + digit_val c)%Z t 0%Z in if in_int z then Some z else None.

(** [std::to_string(int)] *)
Definition digit_char (z : Z) : ascii := ascii_of_nat (48 + Z.to_nat z).
Fixpoint dec (fuel : nat) (z : Z) (acc : str) : str :=
  match fuel with
  | O => acc
  | S f => let acc' := digit_char (z mod 10) :: acc in if (z <? 10)%Z then acc' else dec f (z / 10) acc'
  end.
Definition to_string (z : Z) : str := if (z <? 0)%Z then "-" :: dec 20 (- z) [] else dec 20 z [].

(** src/Interpreter.cpp:81-87: collects the characters of a numeric literal. [None]: the text ended (undefined). The test
    [value.back()] is only reached with a nonempty [value], since the first character is a digit or a point. *)
Fixpoint lex_number (value : str) (is_int : bool) (t : str) : option (str * bool * str) :=
  match t with
  | [] => None
  | c :: t' =>
      if is_digit c || (c =? ".") || is_e c || (((c =? "-") || (c =? "+")) && is_e (last value NUL))
      then lex_number (value ++ [c]) (is_int && is_digit c) t'
      else Some (value, is_int, t)
  end.

(** src/Interpreter.cpp:97-107: the loop for string literals, entered with [depth] = 1 after the opening brace. *)
Inductive lexed := LexOk (value rest : str) | LexEnd (rest : str).
Fixpoint lex_string (depth : nat) (backslash : bool) (value : str) (t : str) : lexed :=
  match t with
  | c :: (_ :: _) as t' =>   (* _more() *)
      let depth := if (c =? "{") && negb backslash then S depth else depth in
      let depth := if (c =? "}") && negb backslash then pred depth else depth in
      let backslash := if c =? "\" then negb backslash else false in
      let value := if negb (depth =? 0)%nat && negb backslash then value ++ [c] else value in
      if (depth =? 0)%nat then LexOk value t' else lex_string depth backslash value t'
  | _ => LexEnd t
  end.

(** src/Interpreter.cpp:23-25 [_skip_spaces]; [None]: the text ended (undefined) *)
Fixpoint skip_spaces (t : str) : option str :=
  match t with
  | [] => None
  | c :: t' => if c =? " " then skip_spaces t' else Some t
  end.

(** src/Interpreter.cpp:37-44 [_read_name] *)
Fixpoint read_name (name : str) (t : str) : option (str * str) :=
  match t with
  | [] => None
  | c :: t' => if is_name_char c then read_name (name ++ [c]) t' else Some (name, t)
  end.

(** src/Interpreter.cpp:27-35 [_char_is]: dereferencing the end iterator ([index] = size) is undefined. *)
Definition char_is (index : nat) (value : ascii) (t : str) : option bool :=
  if (List.length t <? index)%nat then Some false
  else match nth_error t index with Some c => Some (c =? value) | None => None end.

(** [std::equal(name.begin(), name.end(), _text.begin())] given that the text is longer *)
Fixpoint is_prefix (n t : str) : bool :=
  match n, t with
  | [], _ => true
  | x :: n', y :: t' => (x =? y) && is_prefix n' t'
  | _ :: _, [] => false
  end.

(** src/Interpreter.cpp:139-146: the longest operator name at the start of the text *)
Definition select_op (t : str) : option binop :=
  fold_left (fun best b =>
      if (List.length (op_name b) <? List.length t)%nat && is_prefix (op_name b) t
      then if (match best with Some b' => List.length (op_name b') | None => 0 end <? List.length (op_name b))%nat then Some b else best
      else best) all_binops None.

(** src/Interpreter.cpp:15 [_more] *)
Definition more (t : str) : bool := (1 <? List.length t)%nat.

Definition MAX : Z := 2147483647.   (** [std::numeric_limits<int>::max()] *)

(** kinds of undefined behaviour: access to an empty text, integer arithmetic, empty optional, string index, format *)
Inductive ub := UbText | UbArith | UbOptional | UbIndex | UbFormat.
(** exceptions other than [Hil_exception]: [Hil_unhandled_exception], and all the rest *)
Inductive exc := XUnhandled | XOther.

Section Interpreter.
Variable H : host.

(** include/Interpreter.hpp:16-24 *)
Record dyn := Dyn { di : option Z; dd : option (D H); ds : option str }.
Definition dyn0 : dyn := Dyn None None None.
Definition dyn_i (x : Z) : dyn := Dyn (Some x) None None.
Definition dyn_d (x : D H) : dyn := Dyn None (Some x) None.
Definition dyn_s (x : str) : dyn := Dyn None None (Some x).

(** state: the remaining text, the variables, the outside world *)
Record st := St { text : str; vars : space (D H); world : W H }.
Definition set_text (s : st) (t : str) : st := St t (vars s) (world s).
Definition set_vars (s : st) (x : space (D H)) : st := St (text s) x (world s).
Definition set_world (s : st) (w : W H) : st := St (text s) (vars s) w.

Inductive res (A : Type) :=
| ROk (s : st) (a : A)         (** normal return *)
| RHil (s : st) (m : msg)      (** [Hil_exception] *)
| RExc (s : st) (x : exc)      (** another exception *)
| RUb (k : ub)                 (** undefined behaviour *)
| RFuel.                       (** the model's fuel ran out *)
Arguments ROk {A} s a.
Arguments RHil {A} s m.
Arguments RExc {A} s x.
Arguments RUb {A} k.
Arguments RFuel {A}.

Definition bindR {A B} (r : res A) (k : st -> A -> res B) : res B :=
  match r with
  | ROk s a => k s a
  | RHil s m => RHil s m
  | RExc s x => RExc s x
  | RUb u => RUb u
  | RFuel => RFuel
  end.

(** [_text.front()] *)
Definition front (s : st) : res ascii := match text s with [] => RUb UbText | c :: _ => ROk s c end.
(** src/Interpreter.cpp:16-21 [_pop] *)
Definition pop (s : st) : res ascii := match text s with [] => RUb UbText | c :: t => ROk (set_text s t) c end.
Definition skip (s : st) : res unit := match skip_spaces (text s) with Some t => ROk (set_text s t) tt | None => RUb UbText end.

(** ** Variables *)
(** [get()] of a variable, include/Namespace.hpp:36, 47-54; exceptions of callbacks are rethrown as [std::runtime_error] *)
Definition get_int (v : variable Z nat) (s : st) : res Z :=
  match v with
  | Value x => ROk s x
  | Heisenberg k => let (r, w) := w_int H k (world s) in match r with Some x => ROk (set_world s w) x | None => RExc (set_world s w) XOther end
  end.
Definition get_dbl (v : variable (D H) nat) (s : st) : res (D H) :=
  match v with
  | Value x => ROk s x
  | Heisenberg k => let (r, w) := w_dbl H k (world s) in match r with Some x => ROk (set_world s w) x | None => RExc (set_world s w) XOther end
  end.
(** src/Interpreter.cpp:331-338: [exit] clears the text, [throw] throws *)
Definition get_str (v : variable str str_callback) (s : st) : res str :=
  match v with
  | Value x => ROk s x
  | Heisenberg CbExit => ROk (set_text s []) []
  | Heisenberg CbThrow => RExc s XOther
  | Heisenberg (CbHost k) =>
      let (r, w) := w_str H k (world s) in match r with Some x => ROk (set_world s w) x | None => RExc (set_world s w) XOther end
  end.

(** [variables->lookup<T>(n)] *)
Definition lookup_int (n : str) (s : st) : res (option Z) :=
  match find_int n (vars s) with None => ROk s None | Some v => bindR (get_int v s) (fun s x => ROk s (Some x)) end.
Definition lookup_dbl (n : str) (s : st) : res (option (D H)) :=
  match find_dbl n (vars s) with
  | None => ROk s None
  | Some (inl v) => bindR (get_dbl v s) (fun s x => ROk s (Some x))
  | Some (inr v) => bindR (get_int v s) (fun s x => ROk s (Some (d_of_int H x)))
  end.
Definition lookup_str (n : str) (s : st) : res (option str) :=
  match find_str n (vars s) with None => ROk s None | Some v => bindR (get_str v s) (fun s x => ROk s (Some x)) end.

(** src/Interpreter.cpp:125-129 *)
Definition eval_var (n : str) (s : st) : res dyn :=
  if exists_recursive (vars s) n then
    bindR (lookup_int n s) (fun s i =>
    bindR (match i with Some _ => ROk s None | None => lookup_dbl n s end) (fun s d =>
    bindR (lookup_str n s) (fun s t => ROk s (Dyn i d t))))
  else RHil s MUndefined.

(** src/Interpreter.cpp:120-122; a refused assignment throws [std::runtime_error] *)
Definition assign_opt {A} (f : A -> space (D H) -> option (space (D H))) (o : option A) (s : st) : res unit :=
  match o with
  | None => ROk s tt
  | Some x => match f x (vars s) with Some v => ROk (set_vars s v) tt | None => RExc s XOther end
  end.
Definition assign_dyn (n : str) (v : dyn) (s : st) : res unit :=
  bindR (assign_opt (assign_int (d_of_int H) n) (di v) s) (fun s _ =>
  bindR (assign_opt (assign_dbl n) (dd v) s) (fun s _ =>
  assign_opt (assign_str n) (ds v) s)).

(** ** Operators *)
(** [o.i ? *o.i : *o.d] *)
Definition num (o : dyn) : option (D H) := match di o with Some i => Some (d_of_int H i) | None => dd o end.

Definition lift_int (o : outcome Z) (s : st) : res dyn := match o with Ok z => ROk s (dyn_i z) | _ => RUb UbArith end.

(** include/Interpreter.hpp:37-41, src/Interpreter.cpp:160: the integer operations *)
Definition int_arith (a : darith) (x y : Z) : outcome Z :=
  match a with
  | DAdd => chk (x + y)
  | DSub => chk (x - y)
  | DMul => chk (x * y)
  | DDiv => if (y =? 0)%Z then Ub else chk (Z.quot x y)
  | DPow => pow_int x y
  end.

(** src/Interpreter.cpp:170-182 [_arithmetic_op] *)
Definition arithmetic_op (a : darith) (o0 o1 : dyn) (s : st) : res dyn :=
  match ds o0, ds o1 with
  | None, None =>
      match di o0, di o1 with
      | Some x, Some y => lift_int (int_arith a x y) s
      | _, _ => match num o0, num o1 with Some x, Some y => ROk s (dyn_d (d_arith H a x y)) | _, _ => RUb UbOptional end
      end
  | _, _ => RHil s MArith
  end.

(** include/Interpreter.hpp:42-49 *)
Definition int_cmp (c : dcmp) (x y : Z) : bool :=
  match c with
  | CEq => (x =? y)%Z | CGe => (x >=? y)%Z | CLe => (x <=? y)%Z | CLt => (x <? y)%Z | CGt => (x >? y)%Z
  | CAnd => negb (x =? 0)%Z && negb (y =? 0)%Z
  | COr => negb (x =? 0)%Z || negb (y =? 0)%Z
  end.
Definition of_bool (b : bool) : Z := if b then 1%Z else 0%Z.

(** src/Interpreter.cpp:184-196 [_comparison_op] *)
Definition comparison_op (c : dcmp) (o0 o1 : dyn) (s : st) : res dyn :=
  match ds o0, ds o1 with
  | None, None =>
      match di o0, di o1 with
      | Some x, Some y => ROk s (dyn_i (of_bool (int_cmp c x y)))
      | _, _ => match num o0, num o1 with Some x, Some y => ROk s (dyn_i (of_bool (d_cmp H c x y))) | _, _ => RUb UbOptional end
      end
  | _, _ => RHil s MCompare
  end.

(** src/Interpreter.cpp:198-208 [_general_eq] *)
Definition general_eq (o0 o1 : dyn) (s : st) : res dyn :=
  match ds o0, ds o1 with
  | Some x, Some y => ROk s (dyn_i (of_bool (str_eqb x y)))
  | None, None => comparison_op CEq o0 o1 s
  | _, _ => RHil s MEq
  end.

Definition format (fd : str) (x : D H) (s : st) : res str :=
  match d_format H fd x with FmtOk t => ROk s t | FmtThrow => RExc s XOther | FmtUb => RUb UbFormat end.

(** src/Interpreter.cpp:210-226 [_general_add]; [.value()] of an empty optional throws *)
Definition general_add (o0 o1 : dyn) (s : st) : res dyn :=
  match ds o0, ds o1 with
  | None, None => arithmetic_op DAdd o0 o1 s
  | _, _ =>
      bindR (lookup_str (s_ "format_double") s) (fun s o =>
      match o with
      | None => RExc s XOther
      | Some fd =>
          match ds o0, ds o1 with
          | Some x, _ =>
              let x := match di o1 with Some i => x ++ to_string i | None => x end in
              bindR (match dd o1 with Some d => bindR (format fd d s) (fun s t => ROk s (x ++ t)) | None => ROk s x end) (fun s x =>
              ROk s (dyn_s (match ds o1 with Some y => x ++ y | None => x end)))
          | None, Some y =>
              let y := match di o0 with Some i => to_string i ++ y | None => y end in
              bindR (match dd o0 with Some d => bindR (format fd d s) (fun s t => ROk s (t ++ y)) | None => ROk s y end) (fun s y =>
              ROk s (dyn_s y))
          | None, None => RExc s XOther  (* excluded by the outer match *)
          end
      end)
  end.

(** src/Interpreter.cpp:162-168 [_mod] *)
Definition mod_op (o0 o1 : dyn) (s : st) : res dyn :=
  match di o0, di o1 with
  | Some x, Some y => if (y =? 0)%Z then RUb UbArith else if in_int (Z.quot x y) then ROk s (dyn_i (Z.rem x y)) else RUb UbArith
  | _, _ => RHil s MMod
  end.

(** src/Interpreter.cpp:302-305: binary [#]; [operator[]] of [std::string] allows the index [size()] and gives NUL there; a
    negative index is converted to a huge unsigned number *)
Definition index_op (o0 o1 : dyn) (s : st) : res dyn :=
  match ds o0, di o1 with
  | Some x, Some i => if (0 <=? i)%Z && (i <=? Z.of_nat (List.length x))%Z then ROk s (dyn_s [nth (Z.to_nat i) x NUL]) else RUb UbIndex
  | _, _ => RHil s MIndex
  end.

(** src/Interpreter.cpp:300-321 *)
Definition bin_op (b : binop) (o0 o1 : dyn) (s : st) : res dyn :=
  match b with
  | BPow => arithmetic_op DPow o0 o1 s
  | BIndex => index_op o0 o1 s
  | BMod => mod_op o0 o1 s
  | BDiv => arithmetic_op DDiv o0 o1 s
  | BMul => arithmetic_op DMul o0 o1 s
  | BSub => arithmetic_op DSub o0 o1 s
  | BAdd => general_add o0 o1 s
  | BEq => general_eq o0 o1 s
  | BNe => bindR (general_eq o0 o1 s) (fun s v => match di v with Some x => ROk s (dyn_i (of_bool (x =? 0)%Z)) | None => RExc s XOther end)
  | BGe => comparison_op CGe o0 o1 s
  | BLe => comparison_op CLe o0 o1 s
  | BLt => comparison_op CLt o0 o1 s
  | BGt => comparison_op CGt o0 o1 s
  | BAnd => comparison_op CAnd o0 o1 s
  | BOr => comparison_op COr o0 o1 s
  end.

(** src/Interpreter.cpp:228-240 [_numeric_unary] *)
Definition numeric_unary (f : dfun) (v : dyn) (s : st) : res dyn :=
  match num v with
  | Some x => ROk s (Dyn None (Some (d_fun H f x)) (ds v))
  | None => RHil s MNumericUnary
  end.

(** src/Interpreter.cpp:268-270 *)
Definition round_op (v : dyn) (s : st) : res dyn :=
  bindR (numeric_unary FRound v s) (fun s r => match dd r with Some x => ROk s (dyn_i (d_lround H x)) | None => RExc s XOther end).

(** src/Interpreter.cpp:288-292: [print] *)
Definition print_op (v : dyn) (s : st) : res dyn :=
  bindR (general_add (dyn_s []) v s) (fun s r =>
  match ds r with
  | Some x => ROk (set_world s (w_print H x (world s))) (dyn_s [])
  | None => RExc s XOther
  end).

(** src/Interpreter.cpp:243-299 *)
Definition un_op (u : unop) (v : dyn) (s : st) : res dyn :=
  match u with
  | UNeg => match di v, dd v with
            | Some i, _ => match chk (- i) with Ok z => ROk s (Dyn (Some z) (dd v) (ds v)) | _ => RUb UbArith end
            | None, Some d => ROk s (Dyn None (Some (d_neg H d)) (ds v))
            | None, None => RHil s MNeg
            end
  | UNot => match di v with Some i => ROk s (Dyn (Some (of_bool (i =? 0)%Z)) (dd v) (ds v)) | None => RHil s MNot end
  | USize => match ds v with Some x => ROk s (dyn_i (Z.of_nat (List.length x))) | None => RHil s MSize end
  | USqrt => numeric_unary FSqrt v s
  | UExp => numeric_unary FExp v s
  | ULog => numeric_unary FLog v s
  | USin => numeric_unary FSin v s
  | UCos => numeric_unary FCos v s
  | UTan => numeric_unary FTan v s
  | UAsin => numeric_unary FAsin v s
  | UAcos => numeric_unary FAcos v s
  | UAtan => numeric_unary FAtan v s
  | URound => round_op v s
  | UFloor => bindR (numeric_unary FFloor v s) (fun s r => round_op r s)
  | UCeil => bindR (numeric_unary FCeil v s) (fun s r => round_op r s)
  | UAbs => match di v, dd v with
            | Some i, _ => match chk (Z.abs i) with Ok z => ROk s (Dyn (Some z) (dd v) (ds v)) | _ => RUb UbArith end
            | None, Some d => ROk s (Dyn None (Some (d_abs H d)) (ds v))
            | None, None => RExc s XOther
            end
  | URead => match ds v with
             | Some x => match w_read H x (world s) with Some y => ROk s (dyn_s y) | None => RHil s MReadFile end
             | None => RHil s MRead
             end
  | UPrint => print_op v s
  | UPrintln => bindR (general_add v (dyn_s [LF]) s) (fun s r => print_op r s)
  | UShell => match ds v with
              | Some x => let (z, w) := w_shell H x (world s) in ROk (set_world s w) (dyn_i z)
              | None => RHil s MShell
              end
  end.

(** src/Interpreter.cpp:79-93: a numeric literal *)
Definition number_token (s : st) : res dyn :=
  match lex_number [] true (text s) with
  | None => RUb UbText
  | Some (value, is_int, t) =>
      let s := set_text s t in
      if is_int then match stoi value with Some z => ROk s (dyn_i z) | None => RHil s MNumber end
      else match d_stod H value with Some d => ROk s (dyn_d d) | None => RHil s MNumber end
  end.

(** src/Interpreter.cpp:94-108: a string literal, after the opening brace *)
Definition string_token (s : st) : res dyn :=
  match lex_string 1 false [] (text s) with
  | LexOk value t => ROk (set_text s t) (dyn_s value)
  | LexEnd t => RHil (set_text s t) MStringEnd
  end.

(** ** src/Interpreter.cpp:61-158 [_eval]: [eval fuel precedence val s] is the outer loop entered with the current [val]
    ([_eval(precedence)] is [eval fuel precedence dyn0 s]); [binops] is the inner loop src/Interpreter.cpp:138-154. *)
Fixpoint eval (fuel : nat) (p : Z) (v : dyn) (s : st) {struct fuel} : res dyn :=
  match fuel with
  | O => RFuel
  | S f =>
      let after (s : st) (v : dyn) : res dyn :=
        bindR (skip s) (fun s _ =>
        bindR (binops f p v s) (fun s v =>
        if (p <? MAX - 1)%Z then ROk s v else eval f p v s)) in
      if more (text s) then
        bindR (skip s) (fun s _ =>
        bindR (front s) (fun s c =>
        if c =? "$" then
          (* _substitute, src/Interpreter.cpp:53-59 *)
          bindR (pop s) (fun s _ =>
          bindR (eval f 0 dyn0 s) (fun s d =>
          match ds d with
          | Some x => eval f p v (set_text s (x ++ text s))
          | None => RHil s MSubst
          end))
        else if (c =? LF) || (c =? ";") then bindR (pop s) (fun s _ => after s v)
        else if c =? "(" then bindR (pop s) (fun s _ => bindR (eval f MAX dyn0 s) after)
        else if (p =? MAX)%Z && (c =? ")") then bindR (pop s) (fun s _ => ROk s v)
        else if is_digit c || (c =? ".") then bindR (number_token s) after
        else if c =? "{" then bindR (pop s) (fun s _ => bindR (string_token s) after)
        else if is_alpha c || (c =? "_") then
          match read_name [] (text s) with
          | None => RUb UbText
          | Some (n, t) =>
              let s := set_text s t in
              match find_unop n with
              | Some u => bindR (eval f 0 dyn0 s) (fun s d => bindR (un_op u d s) after)
              | None =>
                  bindR (skip s) (fun s _ =>
                  bindR (front s) (fun s c =>
                  match (if c =? "=" then option_map negb (char_is 1 "=" (text s)) else Some false) with
                  | None => RUb UbText
                  | Some true => bindR (pop s) (fun s _ =>
                                 bindR (eval f (MAX - 2)%Z dyn0 s) (fun s d =>
                                 bindR (assign_dyn n d s) (fun s _ => after s d)))
                  | Some false => bindR (eval_var n s) after
                  end))
              end
          end
        else match find_unop [c] with
             | Some u => bindR (pop s) (fun s _ => bindR (eval f 0 dyn0 s) (fun s d => bindR (un_op u d s) after))
             | None => RHil s MParse
             end))
      else ROk s v
  end
with binops (fuel : nat) (p : Z) (v : dyn) (s : st) {struct fuel} : res dyn :=
  match fuel with
  | O => RFuel
  | S f =>
      match select_op (text s) with
      | None => ROk s v
      | Some b =>
          if (op_prec b <? p)%Z then
            bindR (eval f (op_prec b) dyn0 (set_text s (skipn (List.length (op_name b)) (text s)))) (fun s d =>
            bindR (bin_op b v d s) (fun s v =>
            bindR (skip s) (fun s _ => binops f p v s)))
          else ROk s v
      end
  end.

(** src/Interpreter.cpp:373 *)
Fixpoint to_statement_end (t : str) : str :=
  match t with
  | c :: (_ :: _) as t' => if (c =? LF) || (c =? ";") then t else to_statement_end t'
  | _ => t
  end.

(** src/Interpreter.cpp:360-380 [exec] *)
Definition exec (fuel : nat) (comms : str) (s : st) : res unit :=
  match eval fuel (MAX - 1)%Z dyn0 (set_text s (comms ++ [NUL])) with
  | ROk s _ => ROk (set_text s []) tt
  | RHil s m =>
      bindR (lookup_str (s_ "except") s) (fun s o =>
      match o with
      | None => RExc s XOther
      | Some except =>
          let message := w_message H m (text s) in
          match except with
          | [] => RExc s XUnhandled
          | _ :: _ =>
              bindR (assign_opt (assign_str (s_ "exception")) (Some message) s) (fun s _ =>
              bindR (skip s) (fun s _ =>
              let s := set_text s ((except ++ s_ "; exception = {}; except = {};") ++ to_statement_end (text s)) in
              bindR (eval fuel (MAX - 1)%Z dyn0 s) (fun s _ => ROk (set_text s []) tt)))
          end
      end)
  | RExc s x => RExc s x
  | RUb k => RUb k
  | RFuel => RFuel
  end.

(** src/Interpreter.cpp:322-353: the variables of a newly constructed interpreter before the preloaded files are executed.
    The host's string callback 0 is [ask], its double callbacks 0 and 1 are [system_time] and [steady_time]. *)
Definition new_vars : space (D H) :=
  Space (fun _ => None)
        (put (put (put (fun _ => None) (s_ "system_time") (Heisenberg 0%nat)) (s_ "steady_time") (Heisenberg 1%nat)) (s_ "huge") (Value (d_huge H)))
        (put (put (put (put (put (put (fun _ => None) (s_ "ask") (Heisenberg (CbHost 0))) (s_ "exit") (Heisenberg CbExit)) (s_ "throw") (Heisenberg CbThrow))
          (s_ "exception") (Value [])) (s_ "except") (Value [])) (s_ "format_double") (Value (s_ "%g")))
        [].
(** src/Interpreter.cpp:382-388 [make_sub] *)
Definition make_sub (s : st) : space (D H) := Space (ints new_vars) (dbls new_vars) (strs new_vars) [vars s].
End Interpreter.

Arguments ROk {H A} s a.
Arguments RHil {H A} s m.
Arguments RExc {H A} s x.
Arguments RUb {H A} k.
Arguments RFuel {H A}.
Arguments bindR {H A B} r k.
Arguments text {H} s.
Arguments vars {H} s.
Arguments world {H} s.
Arguments Dyn {H} di dd ds.
Arguments di {H} d.
Arguments dd {H} d.
Arguments ds {H} d.
Arguments set_text {H} s t.
Arguments set_vars {H} s x.
Arguments set_world {H} s w.
