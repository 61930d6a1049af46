(** C01, C02, C03, C06, C07, C50, C51: the Hexed Interface Language *)
From Coq Require Import List ZArith Bool Ascii String Lia.
From Verif Require Import Outcome Math_Model Namespace_Model Namespace_Spec Namespace_Proofs Hil_Model Hil_Spec Hil_Lex Hil_Eval Hil_Proofs Hil_Exec Hil_Exit.
Import ListNotations.
Open Scope list_scope.
Local Open Scope char_scope.

(** ** C01: string literals *)
(** The lexer accepts a text exactly if it is a literal's body, a closing brace and something more (the interpreter always keeps
    a NUL at the end of the text), returns what the body denotes and leaves what follows the brace. *)
Theorem hil_literal : forall t s rest, lex_string 1 false [] t = LexOk s rest <->
  exists body, literal body s /\ rest <> [] /\ t = body ++ "}" :: rest.
Proof. exact lex_string_literal. Qed.
Print Assumptions hil_literal.

(** A body denotes one string only, and where it ends does not depend on what follows. *)
Theorem hil_literal_unique : forall body body' s s' r r', literal body s -> literal body' s' -> body ++ "}" :: r = body' ++ "}" :: r' -> body = body' /\ s = s' /\ r = r'.
Proof.
  intros body body' s s' r r' L L' E.
  assert (NN : forall q : str, q ++ [NUL] <> []) by (intros q; destruct q; discriminate).
  assert (A : lex_string 1 false [] (body ++ "}" :: r ++ [NUL]) = LexOk s (r ++ [NUL])) by (apply hil_literal; exists body; split; [exact L|]; split; [apply NN|reflexivity]).
  assert (B : lex_string 1 false [] (body' ++ "}" :: r' ++ [NUL]) = LexOk s' (r' ++ [NUL])) by (apply hil_literal; exists body'; split; [exact L'|]; split; [apply NN|reflexivity]).
  assert (E' : body ++ "}" :: r ++ [NUL] = body' ++ "}" :: r' ++ [NUL]) by (transitivity ((body ++ "}" :: r) ++ [NUL]); [now rewrite <- app_assoc|rewrite E; now rewrite <- app_assoc]).
  rewrite E', B in A. injection A as A1 A2. apply app_inv_tail in A2. subst. split; [|now split]. now apply app_inv_tail in E.
Qed.
Print Assumptions hil_literal_unique.

(** Every string can be written. *)
Theorem hil_literal_escape : forall s, literal (escape s) s.
Proof. exact escape_literal. Qed.
Print Assumptions hil_literal_escape.

(** Executing [n = {body}] stores the denoted string in [n] and changes nothing else. *)
Theorem hil_literal_stored : forall H n body s x w b1 b2 t0, name n -> literal body s -> hereditarily one_type x -> blanks b1 -> blanks b2 ->
  current x n None \/ (exists old, holds x n (EStr (Value old))) ->
  exists x', runs (fun f => exec H f (n ++ b1 ++ "=" :: b2 ++ "{" :: body ++ ["}"]) (St H t0 x w)) (ROk (St H [] x' w) tt) /\
             holds x' n (EStr (Value s)) /\ same_but n x x'.
Proof.
  intros H n body s x w b1 b2 t0 N L U B1 B2 C.
  assert (A : assign_t (d_of_int H) n (VStr s) x = Some (put_entry n (EStr (Value s)) x)).
  { destruct C as [C|(old & C)].
    - now rewrite (assign_eq (d_of_int H) x n None (VStr s) (hered_unique x U) C).
    - now rewrite (assign_eq (d_of_int H) x n (Some (EStr (Value old))) (VStr s) (hered_unique x U) C). }
  exists (put_entry n (EStr (Value s)) x). split; [|split; [apply (put_entry_holds n (EStr (Value s)))|apply (put_entry_same_but n (EStr (Value s)))]].
  pose proof (eval_program H 6 (EAsg n (EText s)) _ x w (WAsg n (-1) (EText s) _ b1 b2 N (WText s body L) ltac:(lia) B1 B2) U) as P.
  cbn [sem sbind] in P. rewrite A in P. cbn [dyn_of] in P.
  eapply exec_of_eval; [exact P|]. reflexivity.
Qed.
Print Assumptions hil_literal_stored.

(** a literal that is never closed raises an exception of the language *)
Theorem hil_literal_unclosed : forall t, t <> [] -> (forall body s rest, literal body s -> t <> body ++ "}" :: rest) ->
  forall H x w, exists f r, eval H f (MAX - 1)%Z (dyn0 H) (St H ("{" :: t ++ [NUL]) x w) = RHil (St H r x w) MStringEnd.
Proof.
  intros t T N H x w. destruct (lex_string 1 false [] (t ++ [NUL])) as [s rest|r] eqn:E.
  - exfalso. apply hil_literal in E. destruct E as (body & L & R & E). destruct (exists_last R) as (r' & c & ->).
    rewrite app_comm_cons, app_assoc in E. apply app_inj_tail in E. destruct E as [E _]. exact (N body s r' L E).
  - exists 2%nat, r. rewrite eval_token; [|discriminate|destruct t; discriminate].
    unfold Hil_Eval.token. cbn -[string_token after]. unfold string_token. cbn [text set_text]. rewrite E. reflexivity.
Qed.
Print Assumptions hil_literal_unclosed.

Example hil_literal_example : literal (s_ "{string} \\ with \} special") (s_ "{string} \ with } special") /\ escape (s_ "a{\") = s_ "a\{\\".
Proof.
  split; [|reflexivity]. assert (E : lex_string 1 false [] (s_ "{string} \\ with \} special}x") = LexOk (s_ "{string} \ with } special") (s_ "x")) by (vm_compute; reflexivity).
  apply hil_literal in E. destruct E as (body & L & _ & E).
  assert (E' : s_ "{string} \\ with \} special" ++ s_ "}x" = body ++ s_ "}x") by exact E. apply app_inv_tail in E'. rewrite E'. exact L.
Qed.

(** ** C02: expressions *)
(** The operators have the symbols and levels of the manual. *)
Theorem hil_operator_table :
  (forall u s, In (u, s) manual_unary <-> un_name u = s_ s) /\
  (forall b s l, In (b, s, l) manual_binary <-> op_name b = s_ s /\ op_prec b = l).
Proof.
  assert (I : forall a b, s_ a = s_ b -> a = b). { intros a b E. rewrite <- (string_of_list_ascii_of_string a), <- (string_of_list_ascii_of_string b). now apply f_equal. }
  split.
  - intros u s. split.
    + intros K. cbn in K. repeat (destruct K as [K|K]; [injection K as <- <-; reflexivity|]). contradiction.
    + intros E. destruct u; apply I in E; subst s; cbn; tauto.
  - intros b s l. split.
    + intros K. cbn in K. repeat (destruct K as [K|K]; [injection K as <- <- <-; split; reflexivity|]). contradiction.
    + intros [E <-]. destruct b; apply I in E; subst s; cbn; tauto.
Qed.
Print Assumptions hil_operator_table.

(** decimal notation of integers, used when an integer is concatenated with a string *)
Lemma dec_decimal : forall f z acc a, (0 <= z < 10 ^ Z.of_nat f)%Z -> f <> 0%nat -> exists n, (0 <= n)%Z /\ decimal a (dec f z acc) = decimal (a * 10 ^ n + z) acc.
Proof.
  induction f as [|f IH]; intros z acc a B F; [lia|].
  assert (C : forall d, (0 <= d < 10)%Z -> (Z.of_nat (nat_of_ascii (digit_char d)) - 48 = d)%Z).
  { intros d K. unfold digit_char. rewrite nat_ascii_embedding by lia. lia. }
  cbn [dec]. destruct (Z.ltb_spec z 10) as [L|L].
  - exists 1%Z. split; [lia|]. cbn [decimal]. rewrite C by (apply Z.mod_pos_bound; lia). rewrite Z.mod_small by lia. f_equal. lia.
  - assert (F' : f <> 0%nat). { intros ->. change (10 ^ Z.of_nat 1)%Z with 10%Z in B. lia. }
    assert (B' : (0 <= z / 10 < 10 ^ Z.of_nat f)%Z).
    { split; [apply Z.div_pos; lia|]. apply Z.div_lt_upper_bound; [lia|]. rewrite Nat2Z.inj_succ, Z.pow_succ_r in B by lia. lia. }
    destruct (IH (z / 10)%Z (digit_char (z mod 10) :: acc) a B' F') as (n & N & E). exists (n + 1)%Z. split; [lia|]. rewrite E. cbn [decimal].
    rewrite C by (apply Z.mod_pos_bound; lia). f_equal. rewrite Z.pow_add_r by lia. pose proof (Z.div_mod z 10 ltac:(lia)). change (10 ^ 1)%Z with 10%Z. lia.
Qed.
Theorem hil_decimal : forall z, fits z = true -> if (z <? 0)%Z then exists t, to_string z = "-" :: t /\ decimal 0 t = (- z)%Z else decimal 0 (to_string z) = z.
Proof.
  intros z F. unfold fits in F. apply andb_prop in F. destruct F as [F1 F2]. apply Z.leb_le in F1. apply Z.leb_le in F2.
  assert (K : forall y, (0 <= y <= 2147483648)%Z -> decimal 0 (dec 20 y []) = y).
  { intros y B. destruct (dec_decimal 20 y [] 0 ltac:(change (10 ^ Z.of_nat 20)%Z with 100000000000000000000%Z; lia) ltac:(lia)) as (n & _ & E). rewrite E. cbn [decimal]. lia. }
  unfold to_string. destruct (Z.ltb_spec z 0) as [L|L]; [eexists; split; [reflexivity|]; apply K; lia|]. apply K. lia.
Qed.
Print Assumptions hil_decimal.

(** Evaluating any way of writing a tree gives the value of the tree. *)
Theorem hil_expression : forall H l e t x w, writes l e t -> hereditarily one_type x ->
  let result r := runs (fun f => eval H f (MAX - 1)%Z (dyn0 H) (St H (t ++ [NUL]) x w)) r in
  match sem H e x w with
  | SOk x' w' d => result (ROk (St H [NUL] x' w') (dyn_of H d))
  | SHil x' w' => exists t' m, result (RHil (St H t' x' w') m)
  | SExc x' w' => exists t' m, result (RExc (St H t' x' w') m)
  | SUndef => exists k, result (RUb k)
  | SSilent => True
  end.
Proof.
  intros H l e t x w W U result. pose proof (eval_program H l e t x w W U) as P. unfold result.
  destruct (sem H e x w) as [x' w' d|x' w'|x' w'| |].
  - apply evals_runs; [discriminate|exact P].
  - destruct P as (t' & m & P). exists t', m. apply evals_runs; [discriminate|exact P].
  - destruct P as (t' & m & P). exists t', m. apply evals_runs; [discriminate|exact P].
  - destruct P as (k & P). exists k. apply evals_runs; [discriminate|exact P].
  - exact I.
Qed.
Print Assumptions hil_expression.

(** The same for [exec], with the variable [except] at its initial value. *)
Theorem hil_program : forall H l e t x w t0, writes l e t -> hereditarily one_type x ->
  let result r := runs (fun f => exec H f t (St H t0 x w)) r in
  match sem H e x w with
  | SOk x' w' _ => result (ROk (St H [] x' w') tt)
  | SHil x' w' => find_str (s_ "except") x' = Some (Value []) -> exists t', result (RExc (St H t' x' w') XUnhandled)
  | SExc x' w' => exists t' m, result (RExc (St H t' x' w') m)
  | SUndef => exists k, result (RUb k)
  | SSilent => True
  end.
Proof.
  intros H l e t x w t0 W U result. pose proof (eval_program H l e t x w W U) as P. unfold result.
  destruct (sem H e x w) as [x' w' d|x' w'|x' w'| |].
  - eapply exec_of_eval; [exact P|]. reflexivity.
  - intros X. destruct P as (t' & m & P). exists t'. eapply exec_of_eval; [exact P|]. intros f. now apply exec_hil_unhandled.
  - destruct P as (t' & m & P). exists t', m. eapply exec_of_eval; [exact P|]. reflexivity.
  - destruct P as (k & P). exists k. eapply exec_of_eval; [exact P|]. reflexivity.
  - exact I.
Qed.
Print Assumptions hil_program.

(** ** C03: macros *)
(** [$], a string-valued operand and blanks are replaced by the string. *)
Theorem hil_macro : forall H e t b b' z x w x1 w1 m t0 t0', writes (-1) e t -> blanks b -> blanks b' -> (forall z', z <> " " :: z') ->
  separated t (b' ++ z) -> hereditarily one_type x -> sem H e x w = SOk x1 w1 (VStr m) ->
  forall r, runs (fun f => exec H f ("$" :: b ++ t ++ b' ++ z) (St H t0 x w)) r <-> runs (fun f => exec H f (m ++ z) (St H t0' x1 w1)) r.
Proof. exact macro_exec. Qed.
Print Assumptions hil_macro.

(** [$$] runs the text stored in the variable whose name the operand computes. *)
Theorem hil_macro_named : forall H e t b' z x w x1 w1 n x2 w2 m t0 t0', writes (-1) e t -> blanks b' -> (forall z', z <> " " :: z') ->
  separated t (b' ++ z) -> separated n z -> name n -> hereditarily one_type x -> sem H e x w = SOk x1 w1 (VStr n) -> read_var H n x1 w1 = SOk x2 w2 (VStr m) ->
  forall r, runs (fun f => exec H f ("$" :: "$" :: t ++ b' ++ z) (St H t0 x w)) r <-> runs (fun f => exec H f (m ++ z) (St H t0' x2 w2)) r.
Proof.
  intros H e t b' z x w x1 w1 n x2 w2 m t0 t0' W B' Z S Sn N U E R.
  destruct (separated_follow t b' z B' Z S) as [F K]. destruct (separated_follow n [] z ltac:(constructor) Z Sn) as [Fn Kn]. cbn [app] in Fn, Kn.
  assert (Q : exists c0 r0, z ++ [NUL] = c0 :: r0) by (destruct z; cbn; eauto). destruct Q as (c0 & r0 & Q). rewrite Q in K, Fn, Kn.
  pose proof (operand H e t [] x w _ c0 r0 x1 w1 (VStr n) W ltac:(constructor) U F K E) as O1. cbn [app] in O1.
  pose proof (operand H (EVar n) n [] x1 w1 _ c0 r0 x2 w2 (VStr m) (WVar n N) ltac:(constructor) ltac:(exact (sem_wf H e x w x1 w1 _ U E)) Fn Kn R) as O2. cbn [app] in O2.
  assert (NN : t ++ (b' ++ z) ++ [NUL] <> []) by (apply app_nonnil; apply app_nonnil; discriminate).
  assert (EQ : forall q, evals H (MAX - 1)%Z (dyn0 H) (start H ("$" :: "$" :: t ++ b' ++ z) (St H t0 x w)) q <-> evals H (MAX - 1)%Z (dyn0 H) (start H (m ++ z) (St H t0' x2 w2)) q).
  { intros q. unfold start. cbn [vars world]. rewrite <- !app_comm_cons, <- (app_assoc m), Q, <- (app_assoc t). apply dollar_iff; [discriminate|].
    apply (dollar_iff H 0%Z (dyn0 H) _ x w (c0 :: r0) x1 w1 n _ NN O1). exact O2. }
  intros r. split; apply exec_same; [exact EQ|]. intros q. symmetry. apply EQ.
Qed.
Print Assumptions hil_macro_named.

(** The documented conditional [$$({case} + (p != 0))]: the text in [case1] is run if [p] is not zero, otherwise that in [case0]. *)
Theorem hil_conditional : forall H l p tp case fd k z x w x1 w1 x2 w2 m t0 t0',
  writes l p tp -> (l <= 4)%Z -> Forall (fun c => is_name_char c = true) case -> case <> [] -> is_digit (hd NUL case) = false ->
  hereditarily one_type x -> sem H p x w = SOk x1 w1 (VInt k) -> find_str (s_ "format_double") x1 = Some (Value fd) ->
  read_var H (case ++ [if (k =? 0)%Z then "0" else "1"]) x1 w1 = SOk x2 w2 (VStr m) ->
  (forall z', z <> " " :: z') -> separated case z ->
  forall r, runs (fun f => exec H f (s_ "$$({" ++ case ++ s_ "} + (" ++ tp ++ s_ " != 0))" ++ z) (St H t0 x w)) r <-> runs (fun f => exec H f (m ++ z) (St H t0' x2 w2)) r.
Proof.
  intros H l p tp case fd k z x w x1 w1 x2 w2 m t0 t0' W L F N D U E FD R Z S.
  set (n := case ++ [if (k =? 0)%Z then "0" else "1"]) in *.
  assert (Fn : Forall (fun c => is_name_char c = true) n) by (apply Forall_app; split; [exact F|constructor; [destruct (k =? 0)%Z; reflexivity|constructor]]).
  assert (Nn : name n).
  { destruct case as [|c case]; [congruence|]. exists c, (case ++ [if (k =? 0)%Z then "0" else "1"]). split; [reflexivity|]. inversion Fn as [|? ? A B]; subst. split; [exact A|]. split; [exact D|]. split; [exact B|].
    intros u Q. apply (f_equal (fun s => last s NUL)) in Q. unfold n in Q. rewrite last_app1 in Q. destruct u, (k =? 0)%Z; discriminate Q. }
  assert (Lit : literal case case).
  { clear - F. induction F as [|c case A F IH]; constructor; try exact IH; intros ->; discriminate A. }
  assert (B : blanks [" "]) by (repeat constructor).
  assert (W1 : writes (-1) (EBin BNe p (ENum 0)) ("(" :: tp ++ s_ " != 0)")).
  { replace (tp ++ s_ " != 0)") with ([] ++ (tp ++ [" "] ++ op_name BNe ++ [" "] ++ ["0"]) ++ [] ++ [")"]) by (cbn [app]; rewrite <- app_assoc; reflexivity).
    apply (WParen 4); [|constructor|constructor]. apply (WBin BNe l (-1)); try assumption; try (cbn; lia). change 0%Z with (decimal 0 ["0"]). apply WNum; [discriminate|repeat constructor]. }
  assert (W2 : writes (-1) (EBin BAdd (EText case) (EBin BNe p (ENum 0))) (s_ "({" ++ case ++ s_ "} + (" ++ tp ++ s_ " != 0))")).
  { replace (s_ "({" ++ case ++ s_ "} + (" ++ tp ++ s_ " != 0))") with ("(" :: [] ++ (("{" :: case ++ ["}"]) ++ [" "] ++ op_name BAdd ++ [" "] ++ ("(" :: tp ++ s_ " != 0)")) ++ [] ++ [")"]).
    - apply (WParen 3); [|constructor|constructor]. apply (WBin BAdd (-1) (-1)); try assumption; try (cbn; lia). now apply WText.
    - cbn. repeat (rewrite <- app_assoc; cbn). reflexivity. }
  assert (E2 : sem H (EBin BAdd (EText case) (EBin BNe p (ENum 0))) x w = SOk x1 w1 (VStr n)).
  { cbn [sem sbind]. rewrite E. cbn [sbind]. change (fits 0) with true. cbn [sbind bin_sem equal compare_num compare_ints]. unfold concat, with_format. rewrite FD. cbn [text_of sbind].
    unfold n. destruct (k =? 0)%Z; reflexivity. }
  intros r. rewrite <- (hil_macro_named H _ _ [] z x w x1 w1 n x2 w2 m t0 t0' W2 ltac:(constructor) Z) with (r := r); try assumption.
  - cbn [app]. replace (s_ "$$({" ++ case ++ s_ "} + (" ++ tp ++ s_ " != 0))" ++ z) with ("$" :: "$" :: (s_ "({" ++ case ++ s_ "} + (" ++ tp ++ s_ " != 0))") ++ z); [reflexivity|].
    cbn. repeat (rewrite <- app_assoc; cbn). reflexivity.
  - intros O. exfalso. revert O. replace (s_ "({" ++ case ++ s_ "} + (" ++ tp ++ s_ " != 0))") with ((s_ "({" ++ case ++ s_ "} + (" ++ tp ++ s_ " != 0)") ++ [")"]).
    + unfold open_end. rewrite last_app1. discriminate.
    + repeat (rewrite <- app_assoc; cbn). reflexivity.
  - intros _. apply S. unfold open_end. apply orb_true_intro. left. clear - F N. induction F as [|c case A F IH]; [congruence|]. destruct case as [|c' case]; [exact A|]. apply IH. discriminate.
Qed.
Print Assumptions hil_conditional.

(** ** C50: statements one after the other *)
(** A written program [t], a separator and any program [c :: y] whose first character is not a blank, separator, [$] or the start of a binary
    operator: the whole behaves like executing [t] and then [c :: y]. *)
Theorem hil_sequence : forall H l e t g1 s g2 c y x w t0 t0', writes l e t -> hereditarily one_type x -> gap g1 -> separator s = true -> gap g2 ->
  c <> "$" -> c <> " " -> separator c = false -> select_op (c :: y ++ [NUL]) = None ->
  let both := fun f => exec H f (t ++ g1 ++ s :: g2 ++ c :: y) (St H t0 x w) in
  match sem H e x w with
  | SOk x1 w1 _ => forall r, r <> RFuel -> runs (fun f => exec H f (c :: y) (St H t0' x1 w1)) r -> runs both r
  | SHil x1 w1 => find_str (s_ "except") x1 = Some (Value []) -> exists t', runs both (RExc (St H t' x1 w1) XUnhandled)
  | SExc x1 w1 => exists t' m, runs both (RExc (St H t' x1 w1) m)
  | SUndef => exists k, runs both (RUb k)
  | SSilent => True
  end.
Proof. exact sequence_exec. Qed.
Print Assumptions hil_sequence.

(** ** C51: the end of the text *)
(** Executing a program accesses the text after its end only if it reads a variable like [exit]: with such variables replaced by
    ones that throw, the same program ends with that exception. *)
Theorem hil_end_of_text : forall H f c t0 x x' w, defused x x' ->
  exec H f c (St H t0 x' w) <> RUb UbText /\
  (exec H f c (St H t0 x w) = RUb UbText -> exists s, exec H f c (St H t0 x' w) = RExc s XOther).
Proof.
  intros H f c t0 x x' w E. split; [|now apply exec_exit]. apply exec_safe. exact (defused_no_exit H x x' E).
Qed.
Print Assumptions hil_end_of_text.

(** ** Examples, and the statements that are false *)
(** a host in which floats are integers and the world is what has been printed *)
Definition toy : host := Host Z (list str) (fun z => z)
 (fun a x y => match a with DAdd => x+y | DSub => x-y | DMul => x*y | DDiv => x/y | DPow => x^y end)%Z
 int_cmp Z.opp Z.abs (fun _ x => x) (fun x => x) (fun _ => Some 0%Z) (fun _ z => FmtOk (to_string z)) 1000%Z
 (fun x w => w ++ [x]) (fun _ _ => None) (fun _ w => (0%Z, w)) (fun _ w => (None, w)) (fun _ w => (None, w)) (fun _ w => (None, w)) (fun _ _ => s_ "error").
Notation fresh := (St toy [] (new_vars toy) []).
(** what a program prints, if it finishes *)
Definition output (r : res toy unit) : option (option (list string)) :=
  match r with ROk s _ => Some (Some (map string_of_list_ascii (world s))) | RFuel => None | _ => Some None end.
Definition prints (c : string) : option (option (list string)) := output (exec toy 300 (s_ c) fresh).

Lemma toy_runs : forall n c r, output (exec toy n c fresh) = Some r -> runs (fun f => exec toy f c fresh) (exec toy n c fresh).
Proof. intros n c r E. apply exec_runs. intros F. rewrite F in E. discriminate E. Qed.
Lemma new_vars_wf : forall H, hereditarily one_type (new_vars H).
Proof.
  intros H. constructor; [|contradiction].
  assert (P : forall n, dbls (new_vars H) n = None \/ strs (new_vars H) n = None).
  { intros n. destruct (str_eqb n (s_ "system_time")) eqn:E1; [apply str_eqb_eq in E1; subst n; right; reflexivity|].
    destruct (str_eqb n (s_ "steady_time")) eqn:E2; [apply str_eqb_eq in E2; subst n; right; reflexivity|].
    destruct (str_eqb n (s_ "huge")) eqn:E3; [apply str_eqb_eq in E3; subst n; right; reflexivity|].
    left. unfold new_vars. cbn [dbls]. unfold put. now rewrite E1, E2, E3. }
  intros n e e' A B. specialize (P n). destruct e, e'; try reflexivity; cbn [holds] in *; exfalso; try discriminate; destruct P; congruence.
Qed.

Example hil_program_example : prints "x = 2*3 - -3*(1 + 1)^2; println x; print({x: } + x + {;}) " = Some (Some [String.append "18" (String LF ""); "x: 18;"%string]).
Proof. vm_compute. reflexivity. Qed.
Example hil_macro_example : prints "y = {1 + }; x = $y 2; case0 = {print {zero}}; case1 = {print {nonzero}}; $$({case} + (x - 3 != 0)); $$({case} + (x != 0))" = Some (Some ["zero"; "nonzero"]%string).
Proof. vm_compute. reflexivity. Qed.
(** an instance of [hil_conditional] with all hypotheses *)
Example hil_conditional_example : forall r, let z := s_ "; print {end}" in
  let x := Space (put (fun _ => None) (s_ "p") (Value 7%Z)) (fun _ => None) (put (strs (new_vars toy)) (s_ "case1") (Value (s_ "print {nonzero}"))) [] in
  runs (fun f => exec toy f (s_ "$$({case} + (p != 0)); print {end}") (St toy [] x [])) r <-> runs (fun f => exec toy f (s_ "print {nonzero}; print {end}") (St toy [] x [])) r.
Proof.
  intros r z x. apply (hil_conditional toy (-1) (EVar (s_ "p")) (s_ "p") (s_ "case") (s_ "%g") 7 z x [] x [] x [] (s_ "print {nonzero}")); try reflexivity; try discriminate; try lia.
  - apply WVar. exists "p", []. repeat split; try constructor. intros u. destruct u; discriminate.
  - repeat constructor.
  - constructor; [|contradiction]. intros n e e' A B.
    assert (P : n <> s_ "p" -> ints x n = None) by (intros N; unfold x; cbn [ints]; unfold put; destruct (str_eqb n (s_ "p")) eqn:Q; [apply str_eqb_eq in Q; congruence|reflexivity]).
    assert (P' : strs x (s_ "p") = None) by reflexivity.
    destruct e, e'; try reflexivity; cbn [holds] in *; exfalso; try discriminate;
    (assert (N : n <> s_ "p") by (intros ->; congruence); specialize (P N); congruence).
  - intros _. split; [intros c y E; injection E as <- <-; split; [reflexivity|discriminate]|]. intros b y B E. destruct B; discriminate E || (subst; discriminate E).
Qed.

(** C03, as the manual puts it, without dropping blanks: false *)
Theorem hil_macro_blanks_refuted : ~ (forall H e t y x w x1 w1 m t0 t0' r, writes (-1) e t -> separated t y -> hereditarily one_type x -> sem H e x w = SOk x1 w1 (VStr m) ->
  (runs (fun f => exec H f ("$" :: t ++ y) (St H t0 x w)) r <-> runs (fun f => exec H f (m ++ y) (St H t0' x1 w1)) r)).
Proof.
  intros K.
  assert (W : writes (-1) (EText (s_ "print 1")) (s_ "{print 1}")).
  { change (s_ "{print 1}") with ("{" :: s_ "print 1" ++ ["}"]). apply WText. repeat (constructor; try discriminate). }
  specialize (K toy (EText (s_ "print 1")) (s_ "{print 1}") (s_ " 2") (new_vars toy) [] (new_vars toy) [] (s_ "print 1") [] [] (exec toy 30 (s_ "print 12") fresh) W).
  destruct K as [K _]; [intros O; discriminate O|apply new_vars_wf|reflexivity|].
  assert (E : exec toy 30 ("$" :: s_ "{print 1}" ++ s_ " 2") fresh = exec toy 30 (s_ "print 12") fresh) by reflexivity.
  rewrite <- E in K.
  assert (E1 : output (exec toy 30 ("$" :: s_ "{print 1}" ++ s_ " 2") fresh) = Some (Some ["12"%string])) by (vm_compute; reflexivity).
  assert (E2 : output (exec toy 30 (s_ "print 1" ++ s_ " 2") fresh) = Some (Some ["1"%string])) by (vm_compute; reflexivity).
  pose proof (runs_unique _ _ _ _ (K (toy_runs _ _ _ E1)) (toy_runs _ _ _ E2)) as Q. rewrite Q, E2 in E1. discriminate E1.
Qed.
Print Assumptions hil_macro_blanks_refuted.

(** C06, for all pairs of statements: false, because a second statement that starts with an operator sign is glued to the first *)
Theorem hil_sequence_refuted : ~ (forall H l1 l2 e1 e2 t1 t2 x w x1 w1 v1 x2 w2 v2 t0, writes l1 e1 t1 -> writes l2 e2 t2 -> hereditarily one_type x ->
  sem H e1 x w = SOk x1 w1 v1 -> sem H e2 x1 w1 = SOk x2 w2 v2 -> runs (fun f => exec H f (t1 ++ ";" :: t2) (St H t0 x w)) (ROk (St H [] x2 w2) tt)).
Proof.
  intros K.
  assert (W : forall s, literal s s -> writes (-1) (EText s) ("{" :: s ++ ["}"])) by (intros; now apply WText).
  assert (A : writes (-1) (EText (s_ "a")) (s_ "{a}")) by (apply (W (s_ "a")); repeat (constructor; try discriminate)).
  assert (B : writes (-1) (EUn USize (EText (s_ "b"))) (s_ "#{b}")).
  { change (s_ "#{b}") with (un_name USize ++ [] ++ s_ "{b}"). apply WUn; [constructor|apply (W (s_ "b")); repeat (constructor; try discriminate)|discriminate]. }
  pose proof (K toy (-1)%Z (-1)%Z _ _ _ _ (new_vars toy) [] (new_vars toy) [] (VStr (s_ "a")) (new_vars toy) [] (VInt 1) [] A B (new_vars_wf toy) eq_refl eq_refl) as Q.
  assert (E : output (exec toy 30 (s_ "{a}" ++ ";" :: s_ "#{b}") fresh) = Some None) by (vm_compute; reflexivity).
  pose proof (runs_unique _ _ _ _ Q (toy_runs _ _ _ E)) as Z. rewrite <- Z in E. discriminate E.
Qed.
Print Assumptions hil_sequence_refuted.

(** C06. Missing from the full statement: a second statement starting with a binary operator sign, [$], or longer-lived macros in the first. *)
Theorem hil_sequence_partial : forall H l1 l2 e1 e2 t1 t2 g1 c g2 x w x1 w1 v1 x2 w2 v2 t0, writes l1 e1 t1 -> writes l2 e2 t2 -> gap g1 -> separator c = true -> gap g2 -> ~ starts_op t2 ->
  hereditarily one_type x -> sem H e1 x w = SOk x1 w1 v1 -> sem H e2 x1 w1 = SOk x2 w2 v2 ->
  runs (fun f => exec H f (t1 ++ g1 ++ c :: g2 ++ t2) (St H t0 x w)) (ROk (St H [] x2 w2) tt).
Proof.
  intros H l1 l2 e1 e2 t1 t2 g1 c g2 x w x1 w1 v1 x2 w2 v2 t0 W1 W2 G1 C G2 O U E1 E2.
  pose proof (hil_program H 7 (ESeq e1 e2) _ x w t0 (WSeq l1 l2 e1 e2 t1 t2 g1 c g2 W1 W2 G1 C G2 O) U) as P. cbn [sem sbind] in P. rewrite E1 in P. cbn [sbind] in P. rewrite E2 in P. exact P.
Qed.
Print Assumptions hil_sequence_partial.

(** C07, including [exit]: false *)
Theorem hil_exit_refuted : ~ (forall H f c s, exec H f c s <> RUb UbText).
Proof. intros K. apply (K toy 30%nat (s_ "exit") fresh). reflexivity. Qed.
Print Assumptions hil_exit_refuted.
Theorem hil_exit_partial : forall H f c s, no_exit H (vars s) -> exec H f c s <> RUb UbText.
Proof. exact exec_safe. Qed.
Print Assumptions hil_exit_partial.

(** the hypothesis of [hil_end_of_text] is satisfiable for a new interpreter *)
Example hil_end_of_text_example : let x := new_vars toy in let x' := Space (ints x) (dbls x) (fun n => option_map defuse (strs x n)) [] in
  defused x x' /\ exec toy 30 (s_ "a = 1; exit") (St toy [] x []) = RUb UbText /\ (exists s, exec toy 30 (s_ "a = 1; exit") (St toy [] x' []) = RExc s XOther /\ ints (vars s) (s_ "a") = Some (Value 1%Z)).
Proof.
  intros x x'. split; [constructor; try reflexivity; constructor|]. split; [reflexivity|]. eexists. split; reflexivity.
Qed.
