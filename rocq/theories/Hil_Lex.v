(** Proofs about the lexical part of the HIL interpreter. *)
From Coq Require Import List ZArith Bool Ascii String Lia.
From Verif Require Import Outcome Math_Model Namespace_Model Namespace_Spec Namespace_Proofs Hil_Model Hil_Spec.
Import ListNotations.
Open Scope list_scope.
Local Open Scope char_scope.

Ltac neq_eqb := match goal with H : ?a <> ?b |- context [Ascii.eqb ?a ?b] => rewrite (proj2 (Ascii.eqb_neq a b) H) end.

(** ** string literals *)
Lemma lex_string_step : forall depth bs value c t, t <> [] ->
  lex_string depth bs value (c :: t) =
    let depth := if (c =? "{") && negb bs then S depth else depth in
    let depth := if (c =? "}") && negb bs then pred depth else depth in
    let bs := if c =? "\" then negb bs else false in
    let value := if negb (depth =? 0)%nat && negb bs then value ++ [c] else value in
    if (depth =? 0)%nat then LexOk value t else lex_string depth bs value t.
Proof. intros depth bs value c [|d t] H; [congruence|reflexivity]. Qed.

Lemma app_nonnil : forall (a b : str), b <> [] -> a ++ b <> [].
Proof. intros [|x a] b H; cbn; [exact H|discriminate]. Qed.

Lemma lex_literal : forall body s, literal body s -> forall depth value rest, rest <> [] -> (1 <= depth)%nat ->
  lex_string depth false value (body ++ rest) = lex_string depth false (value ++ s) rest.
Proof.
  induction 1 as [|c body s A B C L IH|c body s L IH|b1 s1 b2 s2 L1 IH1 L2 IH2]; intros depth value rest R Dp.
  - now rewrite app_nil_r.
  - cbn [app]. rewrite lex_string_step by (now apply app_nonnil). cbv zeta. repeat neq_eqb. cbn [andb].
    destruct depth as [|k]; [lia|]. cbn [Nat.eqb negb andb]. rewrite IH by (assumption || lia). now rewrite <- app_assoc.
  - cbn [app]. rewrite lex_string_step by discriminate. cbn [Ascii.eqb Bool.eqb andb negb].
    destruct depth as [|k]; [lia|]. cbn [Nat.eqb negb andb].
    rewrite lex_string_step by (now apply app_nonnil). cbv zeta. cbn [negb]. rewrite !andb_false_r. cbn [Nat.eqb negb andb].
    assert (E : (if c =? "\" then false else false) = false) by (destruct (c =? "\"); reflexivity). rewrite E. cbn [negb].
    rewrite IH by (assumption || lia). now rewrite <- app_assoc.
  - assert (E : ("{" :: b1 ++ "}" :: b2) ++ rest = "{" :: (b1 ++ "}" :: (b2 ++ rest))).
    { cbn. f_equal. rewrite <- app_assoc. reflexivity. }
    rewrite E. rewrite lex_string_step by (apply app_nonnil; discriminate). cbn [Ascii.eqb Bool.eqb andb negb Nat.eqb].
    rewrite IH1 by (discriminate || lia). rewrite lex_string_step by (now apply app_nonnil).
    destruct depth as [|k]; [lia|]. cbn [Ascii.eqb Bool.eqb andb negb Nat.eqb pred].
    rewrite IH2 by (assumption || lia). f_equal. rewrite <- !app_assoc. reflexivity.
Qed.

Lemma lex_literal_close : forall body s rest, literal body s -> rest <> [] ->
  lex_string 1 false [] (body ++ "}" :: rest) = LexOk s rest.
Proof.
  intros body s rest L R. rewrite (lex_literal body s L) by (discriminate || lia). rewrite lex_string_step by exact R. reflexivity.
Qed.

(* completeness: what the lexer accepts is a literal *)
Lemma lex_string_value : forall t depth bs v value,
  lex_string depth bs (v ++ value) t = match lex_string depth bs value t with LexOk x r' => LexOk (v ++ x) r' | LexEnd r' => LexEnd r' end.
Proof.
  induction t as [|c t IH]; intros depth bs v value; [reflexivity|].
  destruct t as [|d t]; [reflexivity|]. rewrite !lex_string_step by discriminate. cbv zeta.
  set (d2 := if (c =? "}") && negb bs then pred (if (c =? "{") && negb bs then S depth else depth) else if (c =? "{") && negb bs then S depth else depth).
  set (b2 := if c =? "\" then negb bs else false).
  destruct (d2 =? 0)%nat; cbn [negb andb]; [reflexivity|]. destruct (negb b2); [rewrite <- app_assoc|]; apply IH.
Qed.

(* text closing [d] open braces, the last of which is the outermost and not part of the value *)
Inductive closes : nat -> str -> str -> Prop :=
| ClOne body s : literal body s -> closes 1 (body ++ ["}"]) s
| ClMore d body s t s' : literal body s -> closes (S d) t s' -> closes (S (S d)) (body ++ "}" :: t) (s ++ "}" :: s').

Lemma closes_prepend : forall d t s b x, closes d t s -> (forall body y, literal body y -> literal (b ++ body) (x ++ y)) -> closes d (b ++ t) (x ++ s).
Proof.
  intros d t s b x C L. destruct C as [body s C|d body s t s' C1 C2].
  - rewrite app_assoc. constructor. now apply L.
  - rewrite !app_assoc. constructor; [now apply L|exact C2].
Qed.

Lemma lex_string_inv : forall k t d s rest, (List.length t <= k)%nat -> lex_string (S d) false [] t = LexOk s rest ->
  exists u, t = u ++ rest /\ closes (S d) u s /\ rest <> [].
Proof.
  induction k as [|k IH]; intros t d s rest K E; [destruct t; [discriminate|cbn in K; lia]|].
  destruct t as [|c t]; [discriminate|]. destruct t as [|c2 t]; [discriminate|]. rewrite lex_string_step in E by discriminate. cbv zeta in E.
  cbn [negb] in E. rewrite !andb_true_r in E. cbn [List.length] in K.
  destruct (c =? "{") eqn:E1.
  - apply Ascii.eqb_eq in E1. subst c. cbn [Ascii.eqb Bool.eqb andb negb Nat.eqb] in E.
    cbn [app] in E. change (["{"]) with (["{"] ++ []) in E. rewrite lex_string_value in E.
    destruct (lex_string (S (S d)) false [] (c2 :: t)) as [x r|r] eqn:F; [|discriminate]. injection E as <- <-.
    apply IH in F as (u & -> & C & R); [|cbn; lia]. exists ("{" :: u). split; [reflexivity|]. split; [|exact R].
    inversion C as [|d' body x' t' s' L1 C1]; subst.
    replace ("{" :: body ++ "}" :: t') with (("{" :: body ++ ["}"]) ++ t') by (cbn; rewrite <- app_assoc; reflexivity).
    cbn [app]. change ("{" :: (body ++ ["}"]) ++ t') with (("{" :: body ++ ["}"]) ++ t').
    replace ("{" :: x' ++ "}" :: s') with (("{" :: x' ++ ["}"]) ++ s') by (cbn; rewrite <- app_assoc; reflexivity).
    apply closes_prepend; [exact C1|]. intros body2 y L2. pose proof (LitBraces _ _ _ _ L1 L2) as L.
    cbn. rewrite <- !app_assoc. exact L.
  - destruct (c =? "}") eqn:E2.
    + apply Ascii.eqb_eq in E2. subst c. cbn [Ascii.eqb Bool.eqb andb negb pred] in E. destruct d as [|d]; cbn [Nat.eqb negb andb] in E.
      * injection E as <- <-. exists ["}"]. split; [reflexivity|]. split; [|discriminate]. apply (ClOne [] []). constructor.
      * cbn [app] in E. change (["}"]) with (["}"] ++ []) in E. rewrite lex_string_value in E.
        destruct (lex_string (S d) false [] (c2 :: t)) as [x r|r] eqn:F; [|discriminate]. injection E as <- <-.
        apply IH in F as (u & -> & C & R); [|cbn; lia]. exists ("}" :: u). split; [reflexivity|]. split; [|exact R].
        apply (ClMore d [] [] u x); [constructor|exact C].
    + destruct (c =? "\") eqn:E3; cbn [Nat.eqb negb andb] in E.
      * apply Ascii.eqb_eq in E3. subst c. destruct t as [|c3 t]; [discriminate|]. rewrite lex_string_step in E by discriminate. cbv zeta in E.
        cbn [negb] in E. rewrite !andb_false_r in E. cbn [Nat.eqb negb andb] in E.
        assert (Q : (if c2 =? "\" then false else false) = false) by (destruct (c2 =? "\"); reflexivity). rewrite Q in E. cbn [negb] in E.
        cbn [app] in E. change ([c2]) with ([c2] ++ []) in E. rewrite lex_string_value in E.
        destruct (lex_string (S d) false [] (c3 :: t)) as [x r|r] eqn:F; [|discriminate]. injection E as <- <-.
        apply IH in F as (u & -> & C & R); [|cbn in *; lia]. exists ("\" :: c2 :: u). split; [reflexivity|]. split; [|exact R].
        apply (closes_prepend _ u x ["\"; c2] [c2] C). intros. now apply LitEscape.
      * apply Ascii.eqb_neq in E1, E2, E3. cbn [app] in E. change ([c]) with ([c] ++ []) in E. rewrite lex_string_value in E.
        destruct (lex_string (S d) false [] (c2 :: t)) as [x r|r] eqn:F; [|discriminate]. injection E as <- <-.
        apply IH in F as (u & -> & C & R); [|cbn; lia]. exists (c :: u). split; [reflexivity|]. split; [|exact R].
        apply (closes_prepend _ u x [c] [c] C). intros. now apply LitChar.
Qed.
Lemma lex_string_literal : forall t s rest, lex_string 1 false [] t = LexOk s rest <->
  exists body, literal body s /\ rest <> [] /\ t = body ++ "}" :: rest.
Proof.
  intros t s rest. split.
  - intros E. apply (lex_string_inv (List.length t)) in E as (u & -> & C & R); [|lia]. inversion C as [body x L|]; subst.
    exists body. split; [exact L|]. split; [exact R|]. now rewrite <- app_assoc.
  - intros (body & L & R & ->). now apply lex_literal_close.
Qed.

Lemma escape_literal : forall s, literal (escape s) s.
Proof.
  induction s as [|c s IH]; [constructor|]. cbn. destruct (c =? "{") eqn:E1; cbn [orb]; [now constructor|].
  destruct (c =? "}") eqn:E2; cbn [orb]; [now constructor|]. destruct (c =? "\") eqn:E3; [now constructor|].
  apply Ascii.eqb_neq in E1, E2, E3. now constructor.
Qed.

(** ** blanks and names *)
Lemma skip_blanks : forall b t, blanks b -> skip_spaces (b ++ t) = skip_spaces t.
Proof. induction b as [|c b IH]; intros t B; [reflexivity|]. inversion B; subst. cbn. now apply IH. Qed.
Lemma skip_nonblank : forall c t, c <> " " -> skip_spaces (c :: t) = Some (c :: t).
Proof. intros c t N. cbn. now neq_eqb. Qed.
Lemma skip_idem : forall t r, skip_spaces t = Some r -> skip_spaces r = Some r.
Proof.
  induction t as [|c t IH]; intros r H; [discriminate|]. cbn in H. destruct (c =? " ") eqn:E; [now apply IH|].
  injection H as <-. cbn. now rewrite E.
Qed.
Lemma skip_split : forall t r, skip_spaces t = Some r -> exists b, blanks b /\ t = b ++ r.
Proof.
  induction t as [|c t IH]; intros r H; [discriminate|]. cbn in H. destruct (c =? " ") eqn:E.
  - apply Ascii.eqb_eq in E. subst c. destruct (IH r H) as (b & B & ->). exists (" " :: b). split; [constructor; auto|reflexivity].
  - injection H as <-. exists []. split; [constructor|reflexivity].
Qed.

Lemma read_name_app : forall n acc t, Forall (fun c => is_name_char c = true) n ->
  read_name acc (n ++ t) = read_name (acc ++ n) t.
Proof.
  induction n as [|c n IH]; intros acc t F; [now rewrite app_nil_r|]. inversion F; subst. cbn [app read_name]. rewrite H1.
  rewrite IH by assumption. now rewrite <- app_assoc.
Qed.
Lemma read_name_stop : forall acc c t, is_name_char c = false -> read_name acc (c :: t) = Some (acc, c :: t).
Proof. intros acc c t E. cbn. now rewrite E. Qed.

(** ** numbers *)
Definition num_char (prev c : ascii) : bool := is_digit c || (c =? ".") || is_e c || (((c =? "-") || (c =? "+")) && is_e prev).

Lemma lex_number_digits : forall t acc b rest, Forall (fun c => is_digit c = true) t ->
  lex_number acc b (t ++ rest) = lex_number (acc ++ t) b rest.
Proof.
  induction t as [|c t IH]; intros acc b rest F; [now rewrite app_nil_r|]. inversion F; subst. cbn [app lex_number]. rewrite H1. cbn [orb].
  rewrite andb_true_r. rewrite IH by assumption. now rewrite <- app_assoc.
Qed.
Lemma digit_not_e : forall c, is_digit c = true -> is_e c = false.
Proof.
  intros c H. unfold is_e. destruct (c =? "e") eqn:E1; [apply Ascii.eqb_eq in E1; subst; discriminate|].
  destruct (c =? "E") eqn:E2; [apply Ascii.eqb_eq in E2; subst; discriminate|reflexivity].
Qed.
Lemma last_app1 : forall (a : str) c d, last (a ++ [c]) d = c.
Proof. induction a as [|x a IH]; intros c d; [reflexivity|]. cbn. rewrite IH. destruct a; reflexivity. Qed.
Lemma not_name_not_e : forall c, is_name_char c = false -> is_e c = false /\ is_digit c = false.
Proof.
  intros c H. unfold is_name_char in H. apply orb_false_iff in H as [H H3]. apply orb_false_iff in H as [H1 H2]. split; [|exact H2].
  unfold is_e. destruct (c =? "e") eqn:E1; [apply Ascii.eqb_eq in E1; subst; discriminate|].
  destruct (c =? "E") eqn:E2; [apply Ascii.eqb_eq in E2; subst; discriminate|reflexivity].
Qed.
Lemma lex_number_stop : forall acc p b c rest, is_name_char c = false -> c <> "." -> is_e p = false ->
  lex_number (acc ++ [p]) b (c :: rest) = Some (acc ++ [p], b, c :: rest).
Proof.
  intros acc p b c rest N P E. apply not_name_not_e in N as [N1 N2]. cbn. rewrite N1, N2, last_app1, E. neq_eqb. rewrite andb_false_r. reflexivity.
Qed.

Lemma lex_number_float : forall t prev acc b rest, float_chars prev t ->
  lex_number (acc ++ [prev]) b (t ++ rest) = lex_number (acc ++ prev :: t) (b && forallb is_digit t) rest
  /\ exists acc' p, acc ++ prev :: t = acc' ++ [p] /\ is_e p = false.
Proof.
  induction t as [|c t IH]; intros prev acc b rest F; cbn in F.
  - split; [cbn; now rewrite andb_true_r|]. exists acc, prev. split; [reflexivity|]. destruct F as [F|F]; [now apply digit_not_e|subst; reflexivity].
  - destruct F as [F1 F2]. destruct (IH c (acc ++ [prev]) (b && is_digit c) rest F2) as [E1 (acc' & p & E2 & E3)].
    assert (Q : (acc ++ [prev]) ++ c :: t = acc ++ prev :: c :: t) by (rewrite <- app_assoc; reflexivity).
    rewrite Q in E1, E2. split; [|exists acc', p; auto].
    cbn [app lex_number forallb]. rewrite last_app1. rewrite andb_assoc. rewrite <- E1.
    replace (is_digit c || (c =? ".") || is_e c || ((c =? "-") || (c =? "+")) && is_e prev) with true; [reflexivity|]. symmetry.
    destruct F1 as [F1|[F1|[F1|[F1|[F1 F1']]]]].
    + now rewrite F1.
    + subst. now rewrite !orb_true_r.
    + subst. now rewrite !orb_true_r.
    + subst. now rewrite !orb_true_r.
    + assert (X : is_e prev = true) by (destruct F1'; subst; reflexivity). rewrite X. destruct F1; subst; now rewrite !orb_true_r.
Qed.

Lemma lex_number_float_text : forall t c rest, float_text t -> is_name_char c = false -> c <> "." ->
  lex_number [] true (t ++ c :: rest) = Some (t, false, c :: rest).
Proof.
  intros t c rest (a & t' & -> & A & F & d & I & Dg) N P.
  cbn [app lex_number]. replace (is_digit a || (a =? ".") || is_e a || ((a =? "-") || (a =? "+")) && is_e (last [] NUL)) with true.
  2: { destruct A as [A|A]; [now rewrite A|subst; now rewrite !orb_true_r]. }
  destruct (lex_number_float t' a [] (is_digit a) (c :: rest) F) as [E1 (acc' & p & E2 & E3)].
  cbn [app] in E1, E2. cbn [app andb]. rewrite E1. rewrite E2. rewrite lex_number_stop by assumption. rewrite <- E2.
  replace (is_digit a && forallb is_digit t') with (forallb is_digit (a :: t')) by reflexivity.
  assert (X : forallb is_digit (a :: t') = false).
  { destruct (forallb is_digit (a :: t')) eqn:Y; [|reflexivity]. rewrite forallb_forall in Y. apply Y in I. congruence. }
  now rewrite X.
Qed.
Lemma lex_number_int : forall t c rest, t <> [] -> Forall (fun c => is_digit c = true) t -> is_name_char c = false -> c <> "." ->
  lex_number [] true (t ++ c :: rest) = Some (t, true, c :: rest).
Proof.
  intros t c rest T F N P. rewrite lex_number_digits by assumption. cbn [app].
  destruct (exists_last T) as (t' & p & ->). apply lex_number_stop; try assumption. apply digit_not_e.
  apply Forall_app in F as [_ F]. now inversion F.
Qed.

Lemma stoi_decimal : forall t, Forall (fun c => is_digit c = true) t -> stoi t = if fits (decimal 0 t) then Some (decimal 0 t) else None.
Proof.
  intros t F. unfold stoi.
  assert (E : forall acc, fold_left (fun acc c => acc * 10 + digit_val c)%Z t acc = decimal acc t).
  { revert F. clear. induction t as [|c t IH]; intros F acc; [reflexivity|]. inversion F; subst. cbn [fold_left decimal]. rewrite IH by assumption. f_equal.
    unfold digit_val, code. unfold is_digit, code in H1. apply andb_true_iff in H1 as [H1 _]. apply Nat.leb_le in H1. lia. }
  rewrite E. unfold in_int, fits. change (2 ^ 31)%Z with 2147483648%Z. generalize (decimal 0 t). intros z.
  replace (z <? 2147483648)%Z with (z <=? 2147483647)%Z; [reflexivity|]. destruct (Z.leb_spec z 2147483647), (Z.ltb_spec z 2147483648); lia || reflexivity.
Qed.

(** ** operators *)
Definition op_start (c : ascii) : bool := existsb (fun b => Ascii.eqb (hd NUL (op_name b)) c) all_binops.
Definition op_step (t : str) (best : option binop) (b : binop) : option binop :=
  if (List.length (op_name b) <? List.length t)%nat && is_prefix (op_name b) t
  then if (match best with Some b' => List.length (op_name b') | None => 0 end <? List.length (op_name b))%nat then Some b else best
  else best.
Lemma op_step_no : forall c t best b, Ascii.eqb (hd NUL (op_name b)) c = false -> op_step (c :: t) best b = best.
Proof.
  intros c t best b E. unfold op_step. destruct (op_name b) as [|x n] eqn:Q; [destruct b; discriminate|]. cbn in E. cbn [is_prefix]. rewrite E.
  cbn. now rewrite andb_false_r.
Qed.
Lemma select_op_none : forall c t, op_start c = false -> select_op (c :: t) = None.
Proof.
  intros c t E. unfold select_op, op_start in *. change (fold_left (op_step (c :: t)) all_binops None = None).
  revert E. generalize all_binops. induction l as [|b l IH]; intros E; [reflexivity|]. cbn [existsb] in E. apply orb_false_iff in E as [E1 E2].
  cbn [fold_left]. rewrite op_step_no by exact E1. now apply IH.
Qed.
Lemma select_op_name : forall o c t, c <> "=" -> select_op (op_name o ++ c :: t) = Some o.
Proof.
  intros o c t N. apply Ascii.eqb_neq in N.
  assert (N' : ("=" =? c) = false) by (rewrite Ascii.eqb_sym; exact N).
  assert (X : select_op (op_name o ++ c :: t) = fold_left (op_step (op_name o ++ c :: t)) all_binops None) by reflexivity. rewrite X.
  pose (g := fun best o' => if is_prefix (op_name o') (op_name o)
     then if (match best with Some b' => List.length (op_name b') | None => 0 end <? List.length (op_name o'))%nat then Some o' else best
     else best).
  assert (Y : forall o' best, op_step (op_name o ++ c :: t) best o' = g best o').
  { intros o' best. unfold op_step, g.
    assert (Z : (List.length (op_name o') <? List.length (op_name o ++ c :: t))%nat && is_prefix (op_name o') (op_name o ++ c :: t) = is_prefix (op_name o') (op_name o)).
    { clear g X. rewrite andb_comm. destruct o, o'; cbn [op_name s_ list_ascii_of_string app is_prefix List.length]; rewrite ?N', ?andb_false_r; reflexivity. }
    now rewrite Z. }
  assert (F : forall l best, fold_left (op_step (op_name o ++ c :: t)) l best = fold_left g l best).
  { induction l as [|o' l IH]; intros best; [reflexivity|]. cbn [fold_left]. rewrite Y. apply IH. }
  rewrite F. unfold g. clear. destruct o; vm_compute; reflexivity.
Qed.

Lemma unop_find : forall u, find_unop (un_name u) = Some u.
Proof. intros u; destruct u; reflexivity. Qed.
Lemma unop_not_found : forall n, (forall u, n <> un_name u) -> find_unop n = None.
Proof.
  intros n N. unfold find_unop. destruct (find _ _) as [u|] eqn:E; [|reflexivity]. apply find_some in E as [_ E].
  apply str_eqb_eq in E. exfalso; now apply (N u).
Qed.
