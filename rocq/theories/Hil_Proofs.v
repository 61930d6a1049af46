(** The evaluation of a written expression gives its meaning. *)
From Coq Require Import List ZArith Bool Ascii String Lia.
From Verif Require Import Outcome Math_Model Namespace_Model Namespace_Spec Namespace_Proofs Hil_Model Hil_Spec Hil_Lex Hil_Eval.
Import ListNotations.
Open Scope list_scope.
Local Open Scope char_scope.

(** ** Characters *)
Lemma name_char_cases : forall c, is_name_char c = true ->
  op_start c = false /\ c <> "$" /\ c <> LF /\ c <> ";" /\ c <> "(" /\ c <> ")" /\ c <> "{" /\ c <> "." /\ c <> " " /\ c <> "=" /\
  (is_digit c = false -> is_alpha c || (c =? "_") = true).
Proof.
  intros [[] [] [] [] [] [] [] []] E; try discriminate E; repeat split; try discriminate; reflexivity.
Qed.
Lemma digit_name : forall c, is_digit c = true -> is_name_char c = true.
Proof. intros c E. unfold is_name_char. rewrite E. now rewrite orb_true_r. Qed.
Lemma sep_cases : forall c, separator c = true -> c = LF \/ c = ";".
Proof. intros c E. unfold separator in E. apply orb_true_iff in E as [E|E]; apply Ascii.eqb_eq in E; auto. Qed.
Lemma op_name_head : forall o, exists c t, op_name o = c :: t /\ is_name_char c = false /\ c <> "." /\ c <> " ".
Proof. intros []; (eexists; eexists; split; [reflexivity|]; split; [reflexivity|]; split; discriminate). Qed.
Lemma op_name_eq : forall o t, op_name o = "=" :: t -> exists t', t = "=" :: t'.
Proof. intros [] t E; vm_compute in E; inversion E. eauto. Qed.
Lemma un_name_head : forall u, exists c n, un_name u = c :: n /\ c <> " " /\ c <> "=".
Proof. intros []; (eexists; eexists; split; [reflexivity|]; split; discriminate). Qed.

(** ** First characters of a written expression *)
Lemma float_text_head : forall t, float_text t -> exists c t', t = c :: t' /\ (is_digit c = true \/ c = ".") /\ c <> " " /\ c <> "=" /\ op_start c = false.
Proof.
  intros t (c & t' & -> & D & _). exists c, t'. split; [reflexivity|]. split; [exact D|]. destruct D as [D| ->].
  - apply digit_name, name_char_cases in D. tauto.
  - repeat split; discriminate || reflexivity.
Qed.

Lemma writes_head : forall l e t, writes l e t -> exists c t', t = c :: t' /\ c <> "=".
Proof.
  induction 1 as [t N D|t F|s body L|n N|u e b t B W IH S|o l1 l2 e1 e2 t1 t2 b1 b2 W1 IH1 W2 IH2 L1 L2 B1 B2|l e b1 t b2 W IH B1 B2
                 |n l e t b1 b2 N W IH L B1 B2|l1 l2 e1 e2 t1 t2 g1 c g2 W1 IH1 W2 IH2 G1 C G2 S|l e g t W IH G S|l e t g W IH G].
  - destruct t as [|c t]; [congruence|]. exists c, t. split; [reflexivity|]. inversion D; subst. apply digit_name, name_char_cases in H1. tauto.
  - destruct (float_text_head t F) as (c & t' & -> & A). exists c, t'. tauto.
  - eexists; eexists; split; [reflexivity|discriminate].
  - destruct N as (c & n' & -> & A & _). exists c, n'. apply name_char_cases in A. tauto.
  - destruct (un_name_head u) as (c & n & -> & A). exists c. eexists. split; [reflexivity|tauto].
  - destruct IH1 as (c & t' & -> & A). exists c. eexists. split; [reflexivity|exact A].
  - eexists; eexists; split; [reflexivity|discriminate].
  - destruct N as (c & n' & -> & A & _). exists c. eexists. split; [reflexivity|]. apply name_char_cases in A. tauto.
  - destruct IH1 as (c' & t' & -> & A). exists c'. eexists. split; [reflexivity|exact A].
  - destruct g as [|c g]; [exact IH|]. exists c. eexists. split; [reflexivity|]. inversion G; subst. destruct H1 as [->|A]; [discriminate|].
    apply sep_cases in A as [->| ->]; discriminate.
  - destruct IH as (c' & t' & -> & A). exists c'. eexists. split; [reflexivity|exact A].
Qed.
Lemma writes_nonnil : forall l e t, writes l e t -> t <> [].
Proof. intros l e t W. destruct (writes_head l e t W) as (c & t' & -> & _). discriminate. Qed.
Lemma blanks_head : forall b t c t', blanks b -> b ++ t = c :: t' -> (exists c0 t0, t = c0 :: t0 /\ c0 <> "=") -> c <> "=".
Proof.
  intros [|x b] t c t' B E (c0 & t0 & -> & N).
  - cbn in E. injection E as -> _. exact N.
  - cbn in E. inversion B; subst. injection E as <- _. discriminate.
Qed.

Lemma select_op_bang : forall c t, c <> "=" -> select_op ("!" :: c :: t) = None.
Proof.
  intros c t N. apply Ascii.eqb_neq in N. assert (N' : ("=" =? c) = false) by (rewrite Ascii.eqb_sym; exact N).
  change (fold_left (op_step ("!" :: c :: t)) all_binops None = None).
  assert (Z : forall b, op_step ("!" :: c :: t) None b = None).
  { intros b. unfold op_step. rewrite andb_comm. destruct b; cbn [op_name s_ list_ascii_of_string is_prefix]; rewrite ?N'; reflexivity. }
  generalize all_binops. induction l as [|b l IH]; [reflexivity|]. cbn [fold_left]. rewrite Z. exact IH.
Qed.

(** text before which the operator loop stops *)
Definition idle (t : str) : Prop := exists c t', skip_spaces t = Some (c :: t') /\ t' <> [] /\ select_op (c :: t') = None.
Lemma idle_head : forall c t, t <> [] -> c <> " " -> op_start c = false -> idle (c :: t).
Proof. intros c t M N O. exists c, t. split; [now apply skip_nonblank|]. split; [exact M|now apply select_op_none]. Qed.
Lemma idle_blanks : forall b t, blanks b -> idle t -> idle (b ++ t).
Proof. intros b t B (c & t' & E & S). exists c, t'. now rewrite skip_blanks. Qed.

Lemma starts_op_app : forall t s, starts_op t -> starts_op (t ++ s).
Proof. intros t s (t' & [->| ->]); exists (t' ++ s); auto. Qed.

Lemma writes_idle : forall l e t, writes l e t -> ~ starts_op t -> forall rest, rest <> [] -> idle (t ++ rest).
Proof.
  induction 1 as [t N D|t F|s body L|n N|u e b t B W IH S|o l1 l2 e1 e2 t1 t2 b1 b2 W1 IH1 W2 IH2 L1 L2 B1 B2|l e b1 t b2 W IH B1 B2
                 |n l e t b1 b2 N W IH L B1 B2|l1 l2 e1 e2 t1 t2 g1 c g2 W1 IH1 W2 IH2 G1 C G2 S|l e g t W IH G S|l e t g W IH G]; intros NS rest R.
  - destruct t as [|c t]; [congruence|]. inversion D; subst. apply digit_name, name_char_cases in H1. apply idle_head; [discriminate || now apply app_nonnil|tauto..].
  - destruct (float_text_head t F) as (c & t' & -> & A). apply idle_head; [discriminate || now apply app_nonnil|tauto..].
  - apply idle_head; [discriminate || now apply app_nonnil|discriminate|reflexivity].
  - destruct N as (c & n' & -> & A & _). apply name_char_cases in A. apply idle_head; [discriminate || now apply app_nonnil|tauto..].
  - destruct (un_name_head u) as (c & n & E & A).
    destruct u; try (cbn [un_name s_ list_ascii_of_string app]; apply idle_head; [discriminate || now apply app_nonnil|discriminate|reflexivity]).
    + exfalso. apply NS. eexists. left. reflexivity.
    + assert (Q : exists c0 t0, (b ++ t) ++ rest = c0 :: t0 /\ c0 <> "=").
      { destruct (writes_head _ _ _ W) as (c0 & t0 & -> & N0). destruct b as [|x b]; [exists c0; eexists; split; [reflexivity|exact N0]|].
        inversion B; subst. eexists; eexists; split; [reflexivity|discriminate]. }
      destruct Q as (c0 & t0 & Q & N0). exists "!", (c0 :: t0). change (un_name UNot) with ["!"]. cbn [app]. rewrite Q.
      split; [now apply skip_nonblank|]. split; [discriminate|now apply select_op_bang].
    + exfalso. apply NS. eexists. right. reflexivity.
  - rewrite <- app_assoc. apply IH1; [|now apply app_nonnil]. intros X. apply NS. now apply starts_op_app.
  - apply idle_head; [discriminate || now apply app_nonnil|discriminate|reflexivity].
  - destruct N as (c & n' & -> & A & _). apply name_char_cases in A. apply idle_head; [discriminate || now apply app_nonnil|tauto..].
  - rewrite <- app_assoc. apply IH1; [|now apply app_nonnil]. intros X. apply NS. now apply starts_op_app.
  - clear NS. revert G. induction g as [|c g IHg]; intros G; [now apply IH|]. inversion G as [|x y A B]; subst.
    destruct A as [->|A]; [apply (idle_blanks [" "]); [constructor; auto; constructor|now apply IHg]|].
    cbn [app]. apply idle_head; [discriminate || now apply app_nonnil|..]; apply sep_cases in A as [->| ->]; discriminate || reflexivity.
  - rewrite <- app_assoc. apply IH; [|now apply app_nonnil]. intros X. apply NS. now apply starts_op_app.
Qed.

(** ** What may follow a written expression *)
Definition follow (t : str) (l : Z) (rest : str) : Prop :=
  exists c0 r0, skip_spaces rest = Some (c0 :: r0) /\
    (forall b, select_op (c0 :: r0) = Some b -> (l <= op_prec b)%Z) /\
    (open_end t = true \/ (7 <= l)%Z -> c0 = "=" -> exists r1, r0 = "=" :: r1) /\
    (open_end t = true -> exists c r, rest = c :: r /\ is_name_char c = false /\ c <> ".").
Lemma follow_nonnil : forall t l rest, follow t l rest -> rest <> [].
Proof. intros t l rest (c & r & E & _) ->. discriminate. Qed.

Lemma last_app : forall (a b : str) d, b <> [] -> last (a ++ b) d = last b d.
Proof.
  induction a as [|x a IH]; intros b d N; [reflexivity|]. cbn [app]. rewrite <- (IH b d N). destruct (a ++ b) eqn:E; [|reflexivity].
  apply app_eq_nil in E as [_ E]. contradiction.
Qed.
Lemma open_end_app : forall a b, b <> [] -> open_end (a ++ b) = open_end b.
Proof. intros a b N. unfold open_end. now rewrite !last_app. Qed.
Lemma follow_app : forall a b l rest, b <> [] -> follow (a ++ b) l rest -> follow b l rest.
Proof. intros a b l rest N (c & r & E & O & F). rewrite open_end_app in F by exact N. now exists c, r. Qed.
Lemma follow_le : forall t l l' rest, (l' <= l)%Z -> follow t l rest -> follow t l' rest.
Proof.
  intros t l l' rest L (c & r & E & O & F & G). exists c, r. split; [exact E|]. split; [|split; [|exact G]].
  - intros b S. specialize (O b S). lia.
  - intros [Q|Q]; apply F; [now left|right; lia].
Qed.

Lemma follow_op : forall t l o b x, blanks b -> (l <= op_prec o)%Z -> x <> [] -> hd NUL x <> "=" -> follow t l (b ++ op_name o ++ x).
Proof.
  intros t l o b x B L N Hx. destruct (op_name_head o) as (c & n & E & A1 & A2 & A3). exists c, (n ++ x).
  assert (Q : op_name o ++ x = c :: n ++ x) by now rewrite E. split; [|split; [|split]].
  - rewrite skip_blanks by exact B. rewrite Q. now apply skip_nonblank.
  - intros o' S. rewrite <- Q in S. destruct x as [|y x]; [congruence|]. rewrite select_op_name in S by exact Hx. now injection S as <-.
  - intros _ ->. destruct (op_name_eq o n E) as (t' & ->). eexists. reflexivity.
  - intros _. destruct b as [|y b]; cbn [app]; [exists c, (n ++ x); rewrite <- Q; auto|]. inversion B; subst. eexists; eexists; split; [reflexivity|].
    split; [reflexivity|discriminate].
Qed.
Lemma follow_close : forall t l b c x, blanks b -> is_name_char c = false -> c <> "." -> c <> "=" -> c <> " " -> op_start c = false ->
  follow t l (b ++ c :: x).
Proof.
  intros t l b c x B A1 A2 A3 A4 O. exists c, x. split; [rewrite skip_blanks by exact B; now apply skip_nonblank|]. split; [|split].
  - intros o S. rewrite select_op_none in S by exact O. discriminate.
  - congruence.
  - intros _. destruct b as [|y b]; cbn [app]; [eauto 6|]. inversion B; subst. eexists; eexists; split; [reflexivity|].
    split; [reflexivity|discriminate].
Qed.
Lemma follow_sep : forall t l b c x, blanks b -> separator c = true -> follow t l (b ++ c :: x).
Proof. intros t l b c x B S. apply follow_close; [exact B|..]; apply sep_cases in S as [->| ->]; discriminate || reflexivity. Qed.
Lemma gap_head : forall g, gap g -> blanks g \/ exists b c g', blanks b /\ separator c = true /\ gap g' /\ g = b ++ c :: g'.
Proof.
  induction g as [|c g IH]; intros G; [left; constructor|]. inversion G as [|x y A B]; subst. destruct A as [->|A].
  - destruct (IH B) as [Bl|(b & c & g' & Bl & S & G' & ->)]; [left; constructor; auto|]. right. exists (" " :: b), c, g'. repeat split; auto. constructor; auto.
  - right. exists [], c, g. repeat split; auto. constructor.
Qed.
Lemma follow_gap : forall t g l c x, gap g -> separator c = true -> follow t l (g ++ c :: x).
Proof.
  intros t g l c x G S. destruct (gap_head g G) as [B|(b & c' & g' & B & S' & _ & ->)]; [now apply follow_sep|].
  rewrite <- app_assoc. cbn [app]. now apply follow_sep.
Qed.
Lemma follow_trail : forall t g l rest, gap g -> (l <= 7)%Z -> follow (t ++ g) 7 rest -> follow t l (g ++ rest).
Proof.
  intros t g l rest G L F. destruct (gap_head g G) as [B|(b & c' & g' & B & S' & _ & ->)]; [|rewrite <- app_assoc; now apply follow_sep].
  destruct g as [|x g]; [rewrite app_nil_r in F; cbn [app]; now apply (follow_le t 7)|].
  apply (follow_le t 7); [exact L|]. destruct F as (c & r & E & O & F & _). exists c, r. split; [now rewrite skip_blanks|]. split; [exact O|]. split.
  - intros _. apply F. right. lia.
  - intros _. inversion B; subst. exists " ". eexists. split; [reflexivity|]. split; [reflexivity|discriminate].
Qed.

Section Proofs.
Variable H : host.
Notation res := (res H).
Notation st := (st H).
Notation dyn := (dyn H).
Notation St := (St H).
Notation evals := (evals H).
Notation afters := (afters H).
Notation tails := (tails H).
Notation token := (token H).
Notation after := (after H).
Notation dyn_of := (dyn_of H).
Notation is_err := (is_err H).
Notation agree := (agree H).

Definition wf (x : space (D H)) : Prop := hereditarily one_type x.

(** ** Variables *)
Lemma assign_wf : forall n v x x', wf x -> assign_t (d_of_int H) n v x = Some x' -> wf x'.
Proof.
  intros n v x x' U E. pose proof (hered_unique x U) as U1. destruct (current_cases x n) as [cur C].
  rewrite (assign_eq _ x n cur v U1 C) in E. destruct (assign_rule (d_of_int H) cur v) as [e|] eqn:R; [|discriminate]. injection E as <-.
  constructor.
  - apply unique_one_type. apply put_entry_unique; [exact U1|]. pose proof (assign_rule_ty _ cur v e R) as T.
    pose proof (current_exists x n cur C) as X. destruct cur as [e0|]; [right; exists e0; tauto|left; exact X].
  - intros y I. destruct (put_entry_same_but n e x) as [S _]. rewrite S in I. exact (hered_super _ x y U I).
Qed.

Lemma eval_var_agree : forall n t x w, wf x ->
  match read_var H n x w with
  | SUndef => exists d, eval_var H n (St t x w) = ROk (St [] x w) d
  | a => agree t a (eval_var H n (St t x w))
  end.
Proof.
  intros n t x w U. unfold read_var, eval_var. cbn [vars]. destruct (exists_recursive x n) eqn:X; [|cbn; eauto].
  destruct (exists_recursive_found x n U X) as (e & (A & B & C) & _).
  assert (V : variable_of H n x = Some e).
  { unfold variable_of. rewrite A, B, C. destruct e; reflexivity. }
  rewrite V. unfold lookup_int, lookup_dbl, lookup_str. cbn [vars]. rewrite A.
  destruct e as [v|v|v]; cbn [as_int as_dbl as_str] in *; destruct v as [z|k]; cbn [read_entry get_int get_dbl get_str bindR].
  - cbn. rewrite C. reflexivity.
  - cbn [world]. destruct (w_int H k w) as [[z|] w']; cbn; [rewrite C; reflexivity|eauto].
  - cbn [vars]. rewrite B. cbn. rewrite C. reflexivity.
  - cbn [vars]. rewrite B. cbn. destruct (w_dbl H k w) as [[z|] w']; cbn; [rewrite C; reflexivity|eauto].
  - cbn [vars]. rewrite B. cbn. rewrite C. reflexivity.
  - cbn [vars]. rewrite B. cbn. rewrite C. destruct k as [| |k]; cbn; eauto. destruct (w_str H k w) as [[z|] w']; cbn; eauto.
Qed.

Lemma assign_agree : forall n v t x w,
  assign_dyn H n (dyn_of v) (St t x w) =
  match assign_t (d_of_int H) n v x with Some x' => ROk (St t x' w) tt | None => RExc (St t x w) XOther end.
Proof.
  intros n [z|d|s] t x w; unfold assign_dyn; cbn.
  - destruct (assign_int (d_of_int H) n z x); reflexivity.
  - destruct (assign_dbl n d x); reflexivity.
  - reflexivity.
Qed.

Lemma with_format_vars : forall x w k x' w' v, with_format H x w k = SOk x' w' v ->
  (forall fd, k fd x w = SOk x' w' v -> x' = x) -> x' = x.
Proof. intros x w k x' w' v E K. unfold with_format in E. destruct (find_str _ x) as [[fd|c]|]; try discriminate. now apply (K fd). Qed.
Ltac inv_ok := repeat match goal with
  | E : SOk _ _ _ = SOk _ _ _ |- _ => injection E as <- <- <-
  | E : (match ?y with _ => _ end) = SOk _ _ _ |- _ => destruct y eqn:?; try discriminate E
  | E : (if ?y then _ else _) = SOk _ _ _ |- _ => destruct y eqn:?; try discriminate E
  | E : SHil _ _ = SOk _ _ _ |- _ => discriminate E
  end.
Lemma text_of_vars : forall v fd x w x' w' t, text_of H v fd x w = SOk x' w' t -> x' = x.
Proof. intros [z|d|s] fd x w x' w' t E; cbn in E; inv_ok; congruence. Qed.
Lemma print_sem_vars : forall v sfx x w x' w' r, print_sem H v sfx x w = SOk x' w' r -> x' = x.
Proof.
  intros v sfx x w x' w' r E. unfold print_sem in E. apply with_format_vars in E; [exact E|]. intros fd K.
  destruct (text_of H v fd x w) as [x1 w1 t|x1 w1|x1 w1| |] eqn:T; cbn in K; try discriminate. apply text_of_vars in T. congruence.
Qed.
Lemma ret_int_vars : forall z x w x' w' r, ret_int H z x w = SOk x' w' r -> x' = x.
Proof. intros z x w x' w' r E. unfold ret_int in E. destruct (fits z); congruence. Qed.
Lemma arith_vars : forall o v1 v2 x w x' w' r, arith H o v1 v2 x w = SOk x' w' r -> x' = x.
Proof.
  intros o v1 v2 x w x' w' r E. unfold arith in E. destruct v1 as [a|a|a], v2 as [b|b|b]; cbn in E; try congruence.
  destruct o; try (now apply ret_int_vars in E).
  - destruct (b =? 0)%Z; [discriminate|now apply ret_int_vars in E].
  - unfold int_power in E. destruct (0 <=? b)%Z; [now apply ret_int_vars in E|]. destruct (a =? 0)%Z; congruence.
Qed.
Lemma compare_vars : forall o v1 v2 x w x' w' r, compare_num H o v1 v2 x w = SOk x' w' r -> x' = x.
Proof. intros o v1 v2 x w x' w' r E. unfold compare_num in E. destruct v1, v2; cbn in E; congruence. Qed.
Lemma equal_vars : forall v1 v2 x w x' w' r, equal H v1 v2 x w = SOk x' w' r -> x' = x.
Proof. intros v1 v2 x w x' w' r E. unfold equal in E. destruct v1, v2; try (now apply compare_vars in E); congruence. Qed.
Lemma bin_sem_vars : forall o v1 v2 x w x' w' r, bin_sem H o v1 v2 x w = SOk x' w' r -> x' = x.
Proof.
  intros o v1 v2 x w x' w' r E. destruct o; cbn in E; try (now apply arith_vars in E); try (now apply compare_vars in E).
  - destruct v1, v2; try discriminate. destruct ((0 <=? x1) && _)%Z; congruence.
  - destruct v1, v2; try discriminate. destruct (x1 =? 0)%Z; try discriminate. destruct (fits _); congruence.
  - assert (C : concat H v1 v2 x w = SOk x' w' r -> x' = x).
    { clear E. intros E. unfold concat in E. apply with_format_vars in E; [exact E|]. intros fd K.
      destruct (text_of H v1 fd x w) as [x1 w1 t1| | | |] eqn:T1; cbn in K; try discriminate. apply text_of_vars in T1. subst x1.
      destruct (text_of H v2 fd x w1) as [x2 w2 t2| | | |] eqn:T2; cbn in K; try discriminate. apply text_of_vars in T2. congruence. }
    destruct v1, v2; try (now apply C); now apply arith_vars in E.
  - now apply equal_vars in E.
  - destruct (equal H v1 v2 x w) as [x1 w1 v| | | |] eqn:Q; cbn in E; try discriminate. apply equal_vars in Q. destruct v; congruence.
Qed.
Lemma un_sem_vars : forall u v x w x' w' r, un_sem H u v x w = SOk x' w' r -> x' = x.
Proof.
  intros u v x w x' w' r E. destruct u; cbn in E; try (now apply print_sem_vars in E); destruct v as [a|a|a]; cbn in E; try congruence;
  try (now apply ret_int_vars in E).
  - destruct (w_read H a w); congruence.
  - destruct (w_shell H a w). congruence.
Qed.
Lemma read_var_vars : forall n x w x' w' r, read_var H n x w = SOk x' w' r -> x' = x.
Proof.
  intros n x w x' w' r E. unfold read_var in E. destruct (exists_recursive x n); [|discriminate]. destruct (variable_of H n x) as [e|]; [|discriminate].
  destruct e as [[z|k]|[z|k]|[z|[| |k]]]; cbn in E; try congruence;
  match type of E with (let (r, w') := ?y in _) = _ => destruct y as [[z|] w1] end; congruence.
Qed.
Lemma sem_wf : forall e x w x' w' d, wf x -> sem H e x w = SOk x' w' d -> wf x'.
Proof.
  induction e as [z|t|s|n|u e IH|b e1 IH1 e2 IH2|n e IH|e1 IH1 e2 IH2]; intros x w x' w' d U E; cbn [sem] in E.
  - destruct (fits z); congruence.
  - destruct (d_stod H t); congruence.
  - congruence.
  - apply read_var_vars in E. congruence.
  - destruct (sem H e x w) as [x1 w1 v1| | | |] eqn:Q; try discriminate. cbn in E. apply un_sem_vars in E. subst. now apply IH in Q.
  - destruct (sem H e1 x w) as [x1 w1 v1| | | |] eqn:Q; try discriminate. cbn in E. apply IH1 in Q; [|exact U].
    destruct (sem H e2 x1 w1) as [x2 w2 v2| | | |] eqn:Q2; try discriminate. cbn in E. apply bin_sem_vars in E. subst. now apply IH2 in Q2.
  - destruct (sem H e x w) as [x1 w1 v1| | | |] eqn:Q; try discriminate. cbn in E. apply IH in Q; [|exact U].
    destruct (assign_t (d_of_int H) n v1 x1) as [x2|] eqn:A; [|discriminate]. injection E as <- <- <-. now apply assign_wf in A.
  - destruct (sem H e1 x w) as [x1 w1 v1| | | |] eqn:Q; try discriminate. cbn in E. apply IH1 in Q; [|exact U]. now apply IH2 in E.
Qed.

(** ** Runs of the parts *)
Lemma after_mono : forall f g p v s r, (f <= g)%nat -> after f p v s = r -> r <> RFuel -> after g p v s = r.
Proof.
  intros f g p v s r L E N. unfold Hil_Eval.after in *. destruct (skip H s) as [s1 u| | | |] eqn:K; cbn [bindR] in *; try exact E.
  now apply (tail_mono H f g).
Qed.
Lemma evals_skip : forall p v t c r0 x w r, skip_spaces t = Some (c :: r0) -> r0 <> [] ->
  (evals p v (St t x w) r <-> evals p v (St (c :: r0) x w) r).
Proof.
  intros p v t c r0 x w r K N. destruct (skip_split _ _ K) as (b & B & ->). destruct r0 as [|d r0]; [congruence|].
  split; [|now apply evals_blanks].
  intros (f & E & F). exists f. split; [|exact F]. destruct f as [|f]; [cbn in E; congruence|].
  rewrite eval_S in *. cbn [text] in *. rewrite more_pre in E by reflexivity. rewrite more_cons. unfold skip in *. cbn [text] in *.
  rewrite skip_blanks in E by exact B. exact E.
Qed.
Lemma afters_blanks : forall p v b t x w r, blanks b -> (afters p v (St (b ++ t) x w) r <-> afters p v (St t x w) r).
Proof.
  intros p v b t x w r B. unfold Hil_Eval.afters, Hil_Eval.after, skip. cbn [text]. rewrite skip_blanks by exact B.
  destruct (skip_spaces t); reflexivity.
Qed.
Lemma afters_skipped : forall p v t r0 x w r, skip_spaces t = Some r0 -> (afters p v (St t x w) r <-> afters p v (St r0 x w) r).
Proof. intros p v t r0 x w r K. destruct (skip_split _ _ K) as (b & B & ->). now apply afters_blanks. Qed.
Lemma afters_stop : forall p v t c r0 x w, skip_spaces t = Some (c :: r0) -> (p < MAX - 1)%Z ->
  (forall b, select_op (c :: r0) = Some b -> (p <= op_prec b)%Z) -> afters p v (St t x w) (ROk (St (c :: r0) x w) v).
Proof. intros p v t c r0 x w K L S. apply (afters_skip H _ _ _ (c :: r0)); [exact K|]. now apply tails_stop. Qed.
(** the loop goes on with the next token *)
Lemma afters_next : forall p v t x w r, (MAX - 1 <= p)%Z -> idle t -> evals p v (St t x w) r -> afters p v (St t x w) r.
Proof.
  intros p v t x w r L (c & r0 & K & M & S) E. apply (afters_skip H _ _ _ (c :: r0)); [exact K|].
  apply tails_loop; [exact L|exact S|]. now apply (evals_skip p v t c r0).
Qed.

(** ** Tokens *)
(** the rest of the loop after a token that evaluates to [m] gives [r] *)
Definition fin (p : Z) (r : res dyn) (m : res dyn) : Prop :=
  match m with ROk s d => afters p d s r | RHil s q => r = RHil s q | RExc s q => r = RExc s q | RUb k => r = RUb k | RFuel => False end.
Lemma evals_simple : forall p v c t x w m r, c <> " " -> t <> [] ->
  (forall f, token f p v (St (c :: t) x w) c = bindR m (fun s v => after f p v s)) ->
  fin p r m -> evals p v (St (c :: t) x w) r.
Proof.
  intros p v c t x w m r C T K M. apply evals_token; [exact C|exact T|]. destruct m as [s d|s q|s q|k|]; cbn [fin] in M; try contradiction.
  - destruct M as (f & E & F). exists f. split; [rewrite K; exact E|exact F].
  - exists 0%nat. rewrite K. subst r. split; [reflexivity|discriminate].
  - exists 0%nat. rewrite K. subst r. split; [reflexivity|discriminate].
  - exists 0%nat. rewrite K. subst r. split; [reflexivity|discriminate].
Qed.

Lemma evals_sep : forall p v c t x w r, separator c = true -> t <> [] -> afters p v (St t x w) r -> evals p v (St (c :: t) x w) r.
Proof.
  intros p v c t x w r S T A. apply (evals_simple p v c t x w (ROk (St t x w) v)); [|exact T| |exact A].
  - apply sep_cases in S as [->| ->]; discriminate.
  - intros f. apply sep_cases in S as [->| ->]; reflexivity.
Qed.
Lemma gap_afters : forall p v g rest x w r, (MAX - 1 <= p)%Z -> gap g -> rest <> [] ->
  afters p v (St rest x w) r -> afters p v (St (g ++ rest) x w) r.
Proof.
  intros p v g rest x w r L G R A. induction g as [|c g IH]; [exact A|]. inversion G as [|y z C G']; subst.
  destruct C as [->|S]; [apply (afters_blanks p v [" "]); [constructor; auto|now apply IH]|].
  assert (N : c <> " " /\ op_start c = false) by (apply sep_cases in S as [->| ->]; split; discriminate || reflexivity).
  apply (afters_skip H _ _ _ (c :: g ++ rest)); [now apply skip_nonblank|]. apply tails_loop; [exact L|now apply select_op_none|].
  apply evals_sep; [exact S|now apply app_nonnil|now apply IH].
Qed.

Lemma paren_close : forall v t x w, t <> [] -> evals MAX v (St (")" :: t) x w) (ROk (St t x w) v).
Proof.
  intros v t x w T. apply evals_token; [discriminate|exact T|]. exists 0%nat. split; [reflexivity|discriminate].
Qed.
Lemma afters_close : forall v b t x w, blanks b -> t <> [] -> afters MAX v (St (b ++ ")" :: t) x w) (ROk (St t x w) v).
Proof.
  intros v b t x w B T. apply afters_blanks; [exact B|]. apply (afters_skip H _ _ _ (")" :: t)); [reflexivity|].
  apply tails_loop; [unfold MAX; lia|now apply select_op_none|]. now apply paren_close.
Qed.
Lemma evals_paren : forall p v t x w s d r, t <> [] -> evals MAX (dyn0 H) (St t x w) (ROk s d) -> afters p d s r ->
  evals p v (St ("(" :: t) x w) r.
Proof.
  intros p v t x w s d r T (f & E & _) (g & A & N). apply evals_token; [discriminate|exact T|]. exists (f + g)%nat. split; [|exact N].
  unfold Hil_Eval.token. cbn [Ascii.eqb Bool.eqb orb andb LF]. cbn [pop text bindR]. unfold set_text. cbn [vars world].
  change (bindR (eval H (f + g) MAX (dyn0 H) (St t x w)) (fun s v => after (f + g) p v s) = r).
  rewrite (eval_mono H f (f + g) _ _ _ _ ltac:(lia) E ltac:(discriminate)). cbn [bindR]. apply (after_mono g); [lia|exact A|exact N].
Qed.
Lemma evals_paren_err : forall p v t x w r, t <> [] -> evals MAX (dyn0 H) (St t x w) r -> is_err r -> evals p v (St ("(" :: t) x w) r.
Proof.
  intros p v t x w r T (f & E & N) Er. apply evals_token; [discriminate|exact T|]. exists f. split; [|exact N].
  change (bindR (eval H f MAX (dyn0 H) (St t x w)) (fun s v => after f p v s) = r). rewrite E. now apply bind_err.
Qed.

(** unary operators *)
Definition sep_ok (u : unop) (y : str) : Prop := y <> [] /\ (is_name_char (hd NUL (un_name u)) = true -> is_name_char (hd NUL y) = false).
Lemma token_un : forall u y f p v x w, sep_ok u y -> token f p v (St (un_name u ++ y) x w) (hd NUL (un_name u)) =
  bindR (eval H f 0 (dyn0 H) (St y x w)) (fun s d => bindR (un_op H u d s) (fun s v => after f p v s)).
Proof.
  intros u y f p v x w [Y S].
  destruct (is_name_char (hd NUL (un_name u))) eqn:E.
  - specialize (S eq_refl). destruct y as [|c y]; [congruence|]. cbn [hd] in S.
    assert (R : read_name [] (un_name u ++ c :: y) = Some (un_name u, c :: y)).
    { rewrite read_name_app; [now apply read_name_stop|]. destruct u; try discriminate E; repeat constructor. }
    assert (T : token f p v (St (un_name u ++ c :: y) x w) (hd NUL (un_name u)) =
      match read_name [] (un_name u ++ c :: y) with
      | None => RUb UbText
      | Some (n, t) =>
        let s := St t x w in
        match find_unop n with
        | Some u => bindR (eval H f 0 (dyn0 H) s) (fun s d => bindR (un_op H u d s) (fun s v => after f p v s))
        | None =>
            bindR (skip H s) (fun s _ => bindR (front H s) (fun s c =>
            match (if c =? "=" then option_map negb (char_is 1 "=" (text s)) else Some false) with
            | None => RUb UbText
            | Some true => bindR (pop H s) (fun s _ => bindR (eval H f (MAX - 2)%Z (dyn0 H) s) (fun s d =>
                             bindR (assign_dyn H n d s) (fun s _ => after f p d s)))
            | Some false => bindR (eval_var H n s) (fun s v => after f p v s)
            end))
        end
      end).
    { unfold Hil_Eval.token. destruct u; try discriminate E; cbn [un_name hd s_ list_ascii_of_string];
      match goal with |- context [(p =? MAX)%Z && (?a =? ")")] => replace ((p =? MAX)%Z && (a =? ")")) with false by (now rewrite andb_comm) end; reflexivity. }
    rewrite T, R. cbv zeta. rewrite unop_find. reflexivity.
  - unfold Hil_Eval.token. destruct u; try discriminate E; cbn [un_name hd s_ list_ascii_of_string];
    match goal with |- context [(p =? MAX)%Z && (?a =? ")")] => replace ((p =? MAX)%Z && (a =? ")")) with false by (now rewrite andb_comm) end; reflexivity.
Qed.
Lemma evals_un : forall u y p v x w s d r, sep_ok u y -> evals 0 (dyn0 H) (St y x w) (ROk s d) ->
  fin p r (un_op H u d s) ->
  evals p v (St (un_name u ++ y) x w) r.
Proof.
  intros u y p v x w s d r S (f & E & _) U. destruct (un_name_head u) as (c & n & Q & N & _).
  pose proof (token_un u y) as T. rewrite Q in *. cbn [app hd] in *. apply evals_token; [exact N|apply app_nonnil; apply S|].
  destruct (un_op H u d s) as [s2 d2|s2 m|s2 m|k|] eqn:UE; cbn [fin] in U; try contradiction.
  - destruct U as (g & A & F). exists (f + g)%nat. split; [|exact F]. rewrite T by exact S.
    rewrite (eval_mono H f (f + g) _ _ _ _ ltac:(lia) E ltac:(discriminate)). cbn [bindR]. rewrite UE. cbn [bindR]. apply (after_mono g); [lia|exact A|exact F].
  - subst r. exists f. split; [|discriminate]. rewrite T by exact S. rewrite E. cbn [bindR]. rewrite UE. reflexivity.
  - subst r. exists f. split; [|discriminate]. rewrite T by exact S. rewrite E. cbn [bindR]. rewrite UE. reflexivity.
  - subst r. exists f. split; [|discriminate]. rewrite T by exact S. rewrite E. cbn [bindR]. rewrite UE. reflexivity.
Qed.
Lemma evals_un_err : forall u y p v x w r, sep_ok u y -> evals 0 (dyn0 H) (St y x w) r -> is_err r -> evals p v (St (un_name u ++ y) x w) r.
Proof.
  intros u y p v x w r S (f & E & F) Er. destruct (un_name_head u) as (c & n & Q & N & _).
  pose proof (token_un u y) as T. rewrite Q in *. cbn [app hd] in *. apply evals_token; [exact N|apply app_nonnil; apply S|].
  exists f. split; [|exact F]. rewrite T by exact S. rewrite E. now apply bind_err.
Qed.

(** names *)
Lemma token_name : forall n t c0 r0 f p v x w, name n -> is_name_char (hd NUL t) = false -> t <> [] -> skip_spaces t = Some (c0 :: r0) ->
  token f p v (St (n ++ t) x w) (hd NUL n) =
  match (if c0 =? "=" then option_map negb (char_is 1 "=" (c0 :: r0)) else Some false) with
  | None => RUb UbText
  | Some true => bindR (eval H f (MAX - 2)%Z (dyn0 H) (St r0 x w)) (fun s d => bindR (assign_dyn H n d s) (fun s _ => after f p d s))
  | Some false => bindR (eval_var H n (St (c0 :: r0) x w)) (fun s v => after f p v s)
  end.
Proof.
  intros n t c0 r0 f p v x w (c & n' & -> & A & Dg & F & U) S T K. pose proof (name_char_cases c A) as (_ & N1 & N2 & N3 & N4 & N5 & N6 & N7 & _ & _ & AL).
  specialize (AL Dg). cbn [hd]. unfold Hil_Eval.token.
  apply Ascii.eqb_neq in N1, N2, N3, N4, N5, N6, N7. rewrite N1, N2, N3, N4, N5, N6, N7, Dg, AL, andb_false_r. cbn [orb].
  cbn [text]. rewrite read_name_app by (constructor; assumption). destruct t as [|ct t]; [congruence|]. cbn [hd] in S. rewrite read_name_stop by exact S. cbn [app].
  rewrite unop_not_found by exact U. unfold skip, set_text. cbn [text vars world]. rewrite K. cbn [bindR front text].
  destruct (if c0 =? "=" then _ else _) as [[]|]; reflexivity.
Qed.

Lemma evals_var : forall n t c0 r0 p v x w r, name n -> is_name_char (hd NUL t) = false -> skip_spaces t = Some (c0 :: r0) ->
  (c0 = "=" -> exists r1, r0 = "=" :: r1) ->
  fin p r (eval_var H n (St (c0 :: r0) x w)) ->
  evals p v (St (n ++ t) x w) r.
Proof.
  intros n t c0 r0 p v x w r N S K Q M. assert (T : t <> []) by (intros ->; discriminate).
  pose proof (fun f => token_name n t c0 r0 f p v x w N S T K) as TK. destruct N as (c & n' & -> & A & _). cbn [hd app] in *.
  apply (evals_simple p v c (n' ++ t) x w (eval_var H (c :: n') (St (c0 :: r0) x w))); [|now apply app_nonnil| |exact M].
  - apply name_char_cases in A. tauto.
  - intros f. rewrite TK. destruct (c0 =? "=") eqn:E; [|reflexivity]. apply Ascii.eqb_eq in E. destruct (Q E) as (r1 & ->). subst c0. reflexivity.
Qed.
Lemma evals_asg : forall n b1 y p v x w r, name n -> blanks b1 -> y <> [] -> hd NUL y <> "=" ->
  (exists s d, evals (MAX - 2)%Z (dyn0 H) (St y x w) (ROk s d) /\
     match assign_dyn H n d s with ROk s2 _ => afters p d s2 r | RHil s2 m => r = RHil s2 m | RExc s2 m => r = RExc s2 m | RUb k => r = RUb k | RFuel => False end)
  \/ (evals (MAX - 2)%Z (dyn0 H) (St y x w) r /\ is_err r) ->
  evals p v (St (n ++ b1 ++ "=" :: y) x w) r.
Proof.
  intros n b1 y p v x w r N B Y S M.
  assert (K : skip_spaces (b1 ++ "=" :: y) = Some ("=" :: y)) by (rewrite skip_blanks by exact B; reflexivity).
  assert (Hd : is_name_char (hd NUL (b1 ++ "=" :: y)) = false).
  { destruct b1 as [|c b1]; [reflexivity|]. inversion B; subst. reflexivity. }
  pose proof (fun f => token_name n _ _ _ f p v x w N Hd ltac:(now apply app_nonnil) K) as TK.
  assert (C : char_is 1 "=" ("=" :: y) = Some false).
  { unfold char_is. cbn. destruct y as [|c y]; [congruence|]. cbn in *. apply Ascii.eqb_neq in S. now rewrite S. }
  rewrite C in TK. cbn [Ascii.eqb Bool.eqb option_map negb] in TK.
  destruct N as (c & n' & -> & A & _). cbn [hd app] in *.
  apply evals_token; [apply name_char_cases in A; tauto|apply app_nonnil; now apply app_nonnil|].
  destruct M as [(s & d & (f & E & _) & M)|[(f & E & F) Er]].
  - destruct (assign_dyn H (c :: n') d s) as [s2 []|s2 m|s2 m|k|] eqn:AE; try contradiction.
    + destruct M as (g & G & F). exists (f + g)%nat. split; [|exact F]. rewrite TK.
      change (bindR (eval H (f + g) (MAX - 2)%Z (dyn0 H) (St y x w)) (fun s d => bindR (assign_dyn H (c :: n') d s) (fun s _ => after (f + g) p d s)) = r).
      rewrite (eval_mono H f (f + g) _ _ _ _ ltac:(lia) E ltac:(discriminate)). cbn [bindR]. rewrite AE. cbn [bindR]. apply (after_mono g); [lia|exact G|exact F].
    + subst r. exists f. split; [|discriminate]. rewrite TK.
      change (bindR (eval H f (MAX - 2)%Z (dyn0 H) (St y x w)) (fun s d => bindR (assign_dyn H (c :: n') d s) (fun s _ => after f p d s)) = RHil s2 m).
      rewrite E. cbn [bindR]. now rewrite AE.
    + subst r. exists f. split; [|discriminate]. rewrite TK.
      change (bindR (eval H f (MAX - 2)%Z (dyn0 H) (St y x w)) (fun s d => bindR (assign_dyn H (c :: n') d s) (fun s _ => after f p d s)) = RExc s2 m).
      rewrite E. cbn [bindR]. now rewrite AE.
    + subst r. exists f. split; [|discriminate]. rewrite TK.
      change (bindR (eval H f (MAX - 2)%Z (dyn0 H) (St y x w)) (fun s d => bindR (assign_dyn H (c :: n') d s) (fun s _ => after f p d s)) = RUb k).
      rewrite E. cbn [bindR]. now rewrite AE.
  - exists f. split; [|exact F]. rewrite TK.
    change (bindR (eval H f (MAX - 2)%Z (dyn0 H) (St y x w)) (fun s d => bindR (assign_dyn H (c :: n') d s) (fun s _ => after f p d s)) = r).
    rewrite E. now apply bind_err.
Qed.

Lemma token_number : forall c t f p v x w, is_digit c = true \/ c = "." ->
  token f p v (St (c :: t) x w) c = bindR (number_token H (St (c :: t) x w)) (fun s v => after f p v s).
Proof.
  intros c t f p v x w Dg. unfold Hil_Eval.token. destruct Dg as [Dg| ->].
  - pose proof (name_char_cases c (digit_name c Dg)) as (_ & N1 & N2 & N3 & N4 & N5 & _).
    apply Ascii.eqb_neq in N1, N2, N3, N4, N5. rewrite N1, N2, N3, N4, N5, Dg, andb_false_r. reflexivity.
  - rewrite (andb_comm (p =? MAX)%Z). reflexivity.
Qed.
Lemma evals_number : forall c t p v x w r, is_digit c = true \/ c = "." -> t <> [] ->
  fin p r (number_token H (St (c :: t) x w)) -> evals p v (St (c :: t) x w) r.
Proof.
  intros c t p v x w r Dg T M. apply (evals_simple p v c t x w (number_token H (St (c :: t) x w))); [|exact T| |exact M].
  - destruct Dg as [Dg| ->]; [|discriminate]. apply digit_name, name_char_cases in Dg. tauto.
  - intros f. now apply token_number.
Qed.
Lemma evals_string : forall t p v x w s d r, t <> [] -> string_token H (St t x w) = ROk s d -> afters p d s r -> evals p v (St ("{" :: t) x w) r.
Proof.
  intros t p v x w s d r T E A. apply (evals_simple p v "{" t x w (ROk s d)); [discriminate|exact T| |exact A].
  intros f. rewrite <- E. unfold Hil_Eval.token. rewrite (andb_comm (p =? MAX)%Z). reflexivity.
Qed.

(** ** The evaluation of written expressions *)
Definition ok (l p : Z) : Prop := (l < p)%Z /\ (6 <= l -> MAX - 2 <= p)%Z /\ (7 <= l -> MAX - 1 <= p)%Z.
Definition good (p : Z) (rest : str) (a : sres H (tvalue (D H))) (k : res dyn -> Prop) : Prop :=
  match a with
  | SOk x w d => forall r, afters p (dyn_of d) (St rest x w) r -> k r
  | SHil x w => exists t m, k (RHil (St t x w) m)
  | SExc x w => exists t m, k (RExc (St t x w) m)
  | SUndef => exists u, k (RUb u)
  | SSilent => True
  end.

Lemma good_sbind : forall p1 rest1 a k1 p rest f (k : res dyn -> Prop), good p1 rest1 a k1 -> (forall r, is_err r -> k1 r -> k r) ->
  (forall x w d, a = SOk x w d -> (forall r, afters p1 (dyn_of d) (St rest1 x w) r -> k1 r) -> good p rest (f x w d) k) ->
  good p rest (sbind H a f) k.
Proof.
  intros p1 rest1 a k1 p rest f k G E K. destruct a as [x w d|x w|x w| |]; cbn in G |- *.
  - now apply K.
  - destruct G as (t & m & G). exists t, m. now apply E.
  - destruct G as (t & m & G). exists t, m. now apply E.
  - destruct G as (u & G). exists u. now apply E.
  - exact I.
Qed.
Lemma good_change : forall p1 rest1 a k1 p rest (k : res dyn -> Prop), good p1 rest1 a k1 -> (forall r, is_err r -> k1 r -> k r) ->
  (forall x w d, a = SOk x w d -> (forall r, afters p1 (dyn_of d) (St rest1 x w) r -> k1 r) -> forall r, afters p (dyn_of d) (St rest x w) r -> k r) ->
  good p rest a k.
Proof.
  intros p1 rest1 a k1 p rest k G E K. destruct a as [x w d|x w|x w| |]; cbn in G |- *.
  - now apply (K x w d).
  - destruct G as (t & m & G). exists t, m. now apply E.
  - destruct G as (t & m & G). exists t, m. now apply E.
  - destruct G as (u & G). exists u. now apply E.
  - exact I.
Qed.
Lemma good_mono : forall p rest a (k1 k : res dyn -> Prop), good p rest a k1 -> (forall r, k1 r -> k r) -> good p rest a k.
Proof.
  intros p rest a k1 k G K. apply (good_change p rest a k1); [exact G|auto|]. intros x w d _ A r R. apply K. now apply A.
Qed.
Lemma good_agree : forall p rest t a m (k : res dyn -> Prop), agree t a m -> skip_spaces rest = Some t ->
  (forall r, fin p r m -> k r) -> good p rest a k.
Proof.
  intros p rest t a m k A S K. destruct a as [x w d|x w|x w| |]; cbn in A |- *.
  - intros r R. apply K. subst m. cbn. now apply (afters_skipped p _ rest t).
  - destruct A as (q & ->). exists t, q. apply K. reflexivity.
  - destruct A as (q & ->). exists t, q. apply K. reflexivity.
  - destruct A as (q & ->). exists q. apply K. reflexivity.
  - exact I.
Qed.

Lemma afters_op : forall p v o b1 b2 y x w s2 d2 r, blanks b1 -> blanks b2 -> more y = true -> hd NUL (b2 ++ y) <> "=" -> (op_prec o < p)%Z ->
  evals (op_prec o) (dyn0 H) (St y x w) (ROk s2 d2) -> fin p r (bin_op H o v d2 s2) ->
  afters p v (St (b1 ++ op_name o ++ b2 ++ y) x w) r.
Proof.
  intros p v o b1 b2 y x w s2 d2 r B1 B2 M N L E F. apply afters_blanks; [exact B1|].
  destruct (op_name_head o) as (c & n & Q & _ & _ & C).
  apply (afters_skip H _ _ _ (op_name o ++ b2 ++ y)); [rewrite Q; now apply skip_nonblank|].
  assert (E' : evals (op_prec o) (dyn0 H) (St (b2 ++ y) x w) (ROk s2 d2)) by now apply evals_blanks.
  assert (S : select_op (op_name o ++ b2 ++ y) = Some o).
  { destruct (b2 ++ y) as [|c2 y2] eqn:Z; [apply app_eq_nil in Z as [_ ->]; discriminate|]. now apply select_op_name. }
  destruct (bin_op H o v d2 s2) as [s3 v3|s3 q|s3 q|q|] eqn:B; cbn in F; try contradiction.
  - destruct s3 as [t3 x3 w3]. pose proof F as F0. apply afters_inv in F. destruct (skip_spaces t3) as [t4|] eqn:K.
    + now apply (tails_op H p v o (b2 ++ y) x w s2 d2 x3 w3 v3 t3 t4).
    + subst r. destruct E' as (f & E' & _). exists (Datatypes.S f). split; [|discriminate]. unfold tail. rewrite binops_S. cbn [text]. rewrite S.
      destruct (Z.ltb_spec (op_prec o) p); [|lia]. unfold set_text. cbn [text vars world]. rewrite skipn_app, skipn_all, Nat.sub_diag. cbn [skipn app].
      rewrite E'. cbn [bindR]. rewrite B. cbn [bindR]. unfold skip. cbn [text]. now rewrite K.
  - subst r. now apply (tails_op_err2 H p v o (b2 ++ y) x w s2 d2).
  - subst r. now apply (tails_op_err2 H p v o (b2 ++ y) x w s2 d2).
  - subst r. now apply (tails_op_err2 H p v o (b2 ++ y) x w s2 d2).
Qed.
Lemma afters_op_err : forall p v o b1 b2 y x w r, blanks b1 -> blanks b2 -> more y = true -> hd NUL (b2 ++ y) <> "=" -> (op_prec o < p)%Z ->
  evals (op_prec o) (dyn0 H) (St y x w) r -> is_err r -> afters p v (St (b1 ++ op_name o ++ b2 ++ y) x w) r.
Proof.
  intros p v o b1 b2 y x w r B1 B2 M N L E Er. apply afters_blanks; [exact B1|].
  destruct (op_name_head o) as (c & n & Q & _ & _ & C).
  apply (afters_skip H _ _ _ (op_name o ++ b2 ++ y)); [rewrite Q; now apply skip_nonblank|].
  apply tails_op_err1; [|exact L|now apply evals_blanks|exact Er].
  destruct (b2 ++ y) as [|c2 y2] eqn:Z; [apply app_eq_nil in Z as [_ ->]; discriminate|]. now apply select_op_name.
Qed.

Lemma evals_gap : forall p v g y x w r, (MAX - 1 <= p)%Z -> gap g -> idle y -> evals p v (St y x w) r -> evals p v (St (g ++ y) x w) r.
Proof.
  intros p v g y x w r L G I E. assert (M : more y = true).
  { destruct I as (c & t' & K & N & _). destruct (skip_split _ _ K) as (b & _ & ->). apply more_pre. destruct t'; [congruence|reflexivity]. }
  assert (Y : y <> []) by (intros ->; discriminate).
  induction g as [|c g IH]; [exact E|]. inversion G as [|a b C G']; subst. destruct C as [->|S].
  - apply (evals_blanks H p v [" "]); [constructor; auto|now apply more_pre|now apply IH].
  - apply evals_sep; [exact S|now apply app_nonnil|]. apply gap_afters; [exact L|exact G'|exact Y|]. now apply afters_next.
Qed.

Lemma writes_level : forall l e t, writes l e t -> (-1 <= l <= 7)%Z.
Proof. induction 1; try lia. destruct o; cbn; lia. Qed.
Lemma hd_blanks : forall b y, blanks b -> hd NUL y <> "=" -> hd NUL (b ++ y) <> "=".
Proof. intros [|c b] y B N; [exact N|]. inversion B; subst. discriminate. Qed.
Lemma writes_hd : forall l e t rest, writes l e t -> hd NUL (t ++ rest) <> "=".
Proof. intros l e t rest W. destruct (writes_head l e t W) as (c & t' & -> & N). exact N. Qed.
Lemma writes_more : forall l e t rest, writes l e t -> rest <> [] -> more (t ++ rest) = true.
Proof. intros l e t rest W R. apply more_app; [now apply writes_nonnil in W|exact R]. Qed.

Theorem eval_writes : forall l e t, writes l e t -> forall p v x w rest, wf x -> ok l p -> follow t l rest ->
  good p rest (sem H e x w) (evals p v (St (t ++ rest) x w)).
Proof.
  induction 1 as [t N Dg|t F|s body L|n N|u e b t B W IH S|o l1 l2 e1 e2 t1 t2 b1 b2 W1 IH1 W2 IH2 L1 L2 B1 B2|l e b1 t b2 W IH B1 B2
                 |n l e t b1 b2 N W IH L B1 B2|l1 l2 e1 e2 t1 t2 g1 c g2 W1 IH1 W2 IH2 G1 C G2 S|l e g t W IH G S|l e t g W IH G];
    intros p v x w rest U O Fo; pose proof (follow_nonnil _ _ _ Fo) as R.
  - (* integer literal *)
    destruct Fo as (c0 & r0 & K & _ & _ & Op). destruct Op as (c & r & -> & NC & ND).
    { unfold open_end. destruct (exists_last N) as (t' & q & ->). rewrite last_app1. apply Forall_app in Dg as [_ Dg]. inversion Dg; subst. now rewrite digit_name. }
    assert (T : forall q, fin p q (if fits (decimal 0 t) then ROk (St (c :: r) x w) (dyn_i H (decimal 0 t)) else RHil (St (c :: r) x w) MNumber) ->
                          evals p v (St (t ++ c :: r) x w) q).
    { intros q Q. pose proof (stoi_decimal t Dg) as SD. destruct t as [|c1 t]; [congruence|]. cbn [app].
      apply evals_number; [left; now inversion Dg|now apply app_nonnil|].
      unfold number_token. cbn [text]. change (c1 :: t ++ c :: r) with ((c1 :: t) ++ c :: r). rewrite lex_number_int by assumption.
      rewrite SD. destruct (fits (decimal 0 (c1 :: t))); exact Q. }
    cbn [sem]. destruct (fits (decimal 0 t)); cbn [good]; [intros q Q; now apply T|]. exists (c :: r), MNumber. now apply T.
  - (* float literal *)
    destruct Fo as (c0 & r0 & K & _ & _ & Op). destruct Op as (c & r & -> & NC & ND).
    { destruct F as (c1 & t' & -> & D1 & FC & _). clear -D1 FC. revert c1 D1 FC. induction t' as [|c2 t' IH]; intros c1 D1 FC; cbn in FC.
      - unfold open_end. cbn. destruct FC as [E| ->]; [now rewrite digit_name|reflexivity].
      - destruct FC as [_ FC]. change (c1 :: c2 :: t') with ([c1] ++ c2 :: t'). rewrite open_end_app by discriminate.
        clear IH D1. revert c2 FC. induction t' as [|c3 t' IH]; intros c2 FC; cbn in FC.
        + unfold open_end. cbn. destruct FC as [E| ->]; [now rewrite digit_name|reflexivity].
        + destruct FC as [_ FC]. change (c2 :: c3 :: t') with ([c2] ++ c3 :: t'). rewrite open_end_app by discriminate. now apply IH. }
    assert (T : forall q, fin p q (match d_stod H t with Some d => ROk (St (c :: r) x w) (dyn_d H d) | None => RHil (St (c :: r) x w) MNumber end) ->
                          evals p v (St (t ++ c :: r) x w) q).
    { intros q Q. pose proof (lex_number_float_text t c r F NC ND) as LN. destruct (float_text_head t F) as (c1 & t' & -> & Dg & _). cbn [app].
      apply evals_number; [exact Dg|now apply app_nonnil|].
      unfold number_token. cbn [text]. cbn [app] in LN. rewrite LN. exact Q. }
    cbn [sem]. destruct (d_stod H t); cbn [good]; [intros q Q; now apply T|]. exists (c :: r), MNumber. now apply T.
  - (* string literal *)
    cbn [sem good]. intros q Q. rewrite <- app_comm_cons. rewrite <- app_assoc. cbn [app].
    apply (evals_string _ p v x w (St rest x w) (dyn_s H s)); [now apply app_nonnil| |exact Q].
    unfold string_token. cbn [text]. now rewrite (lex_literal_close body s rest L R).
  - (* variable *)
    destruct Fo as (c0 & r0 & K & _ & Eq & Op).
    assert (OE : open_end n = true).
    { destruct N as (c & n' & -> & A & _ & F & _). unfold open_end. assert (FF : Forall (fun c => is_name_char c = true) (c :: n')) by (constructor; assumption).
      destruct (@exists_last _ (c :: n') ltac:(discriminate)) as (a & z & E). rewrite E in *. rewrite last_app1. apply Forall_app in FF as [_ FF]. inversion FF; subst.
      now rewrite H2. }
    specialize (Eq (or_introl OE)). destruct (Op OE) as (c & r & -> & NC & _).
    assert (T : forall q, fin p q (eval_var H n (St (c0 :: r0) x w)) -> evals p v (St (n ++ c :: r) x w) q).
    { intros q Q. now apply (evals_var n (c :: r) c0 r0). }
    pose proof (eval_var_agree n (c0 :: r0) x w U) as A. cbn [sem]. destruct (read_var H n x w) as [x1 w1 d|x1 w1|x1 w1| |] eqn:RV;
    try (apply (good_agree p (c :: r) (c0 :: r0) _ _ _ A K T)).
    destruct A as (d & A). exists UbText. apply T. rewrite A. cbn. exists 0%nat. split; [reflexivity|discriminate].
  - (* unary operator *)
    cbn [sem]. assert (O' : ok (-1) 0) by (unfold ok; lia).
    assert (Ft : follow t (-1) rest) by (apply (follow_app (un_name u ++ b)); [now apply writes_nonnil in W|now rewrite <- app_assoc]).
    rewrite <- !app_assoc.
    assert (SO : sep_ok u (b ++ t ++ rest)).
    { split; [apply app_nonnil; now apply app_nonnil|]. intros Hn. specialize (S Hn). destruct b as [|c b].
      - destruct S as [S|S]; [congruence|]. cbn [app]. destruct (writes_head _ _ _ W) as (c & t' & -> & _). cbn.
        destruct (is_name_char c) eqn:E; [|reflexivity]. exfalso. apply S. exists c, t'. auto.
      - inversion B; subst. reflexivity. }
    apply (good_sbind 0 rest _ _ p rest _ _ (IH 0%Z (dyn0 H) x w rest U O' Ft)).
    + intros r Er E. apply evals_un_err; [exact SO| |exact Er]. apply evals_blanks; [exact B|now apply (writes_more (-1) e)|exact E].
    + intros x1 w1 d _ A. destruct Fo as (c0 & r0 & K & _).
      apply (good_agree p rest (c0 :: r0) _ _ _ (un_agree H u d (c0 :: r0) x1 w1) K).
      intros r Fi. apply (evals_un u _ p v x w (St (c0 :: r0) x1 w1) (dyn_of d)); [exact SO| |exact Fi].
      apply evals_blanks; [exact B|now apply (writes_more (-1) e)|]. apply A. apply afters_stop; [exact K|unfold MAX; lia|]. intros o _. destruct o; cbn; lia.
  - (* binary operator *)
    cbn [sem]. rewrite <- !app_assoc.
    assert (Ft2 : follow t2 (op_prec o) rest).
    { apply (follow_app (t1 ++ b1 ++ op_name o ++ b2)); [now apply writes_nonnil in W2|now rewrite <- !app_assoc]. }
    assert (O1 : ok l1 p) by (unfold ok, MAX in *; destruct o; cbn in *; lia).
    assert (O2 : ok l2 (op_prec o)) by (unfold ok, MAX in *; destruct o; cbn in *; lia).
    assert (F1 : follow t1 l1 (b1 ++ op_name o ++ b2 ++ t2 ++ rest)).
    { apply follow_op; [exact B1|exact L1|apply app_nonnil; now apply app_nonnil|]. apply hd_blanks; [exact B2|now apply (writes_hd l2 e2)]. }
    assert (Hd : hd NUL (b2 ++ t2 ++ rest) <> "=") by (apply hd_blanks; [exact B2|now apply (writes_hd l2 e2)]).
    assert (M2 : more (t2 ++ rest) = true) by (now apply (writes_more l2 e2)).
    assert (Lp : (op_prec o < p)%Z) by (unfold ok in O; tauto).
    apply (good_sbind p _ _ _ p rest _ _ (IH1 p v x w _ U O1 F1)); [auto|]. intros x1 w1 v1 Q1 A1.
    assert (U1 : wf x1) by (exact (sem_wf e1 x w x1 w1 v1 U Q1)).
    apply (good_sbind (op_prec o) rest _ _ p rest _ _ (IH2 (op_prec o) (dyn0 H) x1 w1 rest U1 O2 (follow_le t2 (op_prec o) l2 rest ltac:(lia) Ft2))).
    + intros r Er E. apply A1. now apply afters_op_err.
    + intros x2 w2 v2 _ A2. destruct Fo as (c0 & r0 & K & OB & _).
      apply (good_agree p rest (c0 :: r0) _ _ _ (bin_agree H o v1 v2 (c0 :: r0) x2 w2) K). intros r Fi. apply A1.
      apply (afters_op p (dyn_of v1) o b1 b2 _ x1 w1 (St (c0 :: r0) x2 w2) (dyn_of v2)); try assumption.
      apply A2. apply afters_stop; [exact K|destruct o; cbn; unfold MAX; lia|exact OB].
  - (* parentheses *)
    rewrite <- app_comm_cons, <- !app_assoc. cbn [app].
    assert (O1 : ok l MAX) by (pose proof (writes_level _ _ _ W); unfold ok, MAX; lia).
    assert (F1 : follow t l (b2 ++ ")" :: rest)) by (apply follow_close; try discriminate; try reflexivity; exact B2).
    assert (Y : b1 ++ t ++ b2 ++ ")" :: rest <> []) by (repeat apply app_nonnil; discriminate).
    assert (M : more (t ++ b2 ++ ")" :: rest) = true) by (apply (writes_more l e); [exact W|apply app_nonnil; discriminate]).
    apply (good_change MAX _ _ _ p rest _ (IH MAX (dyn0 H) x w _ U O1 F1)).
    + intros r Er E. apply evals_paren_err; [exact Y| |exact Er]. now apply evals_blanks.
    + intros x1 w1 d _ A r Af. apply (evals_paren p v _ x w (St rest x1 w1) (dyn_of d)); [exact Y| |exact Af].
      apply evals_blanks; [exact B1|exact M|]. apply A. now apply afters_close.
  - (* assignment *)
    cbn [sem]. rewrite <- !app_assoc. cbn [app]. rewrite <- app_assoc.
    assert (Ft : follow t 6 rest).
    { apply (follow_app (n ++ b1 ++ "=" :: b2)); [now apply writes_nonnil in W|]. rewrite <- !app_assoc. exact Fo. }
    assert (O1 : ok l (MAX - 2)) by (unfold ok, MAX; lia).
    assert (Y : b2 ++ t ++ rest <> []) by (repeat apply app_nonnil; exact R).
    assert (Hd : hd NUL (b2 ++ t ++ rest) <> "=") by (apply hd_blanks; [exact B2|now apply (writes_hd l e)]).
    assert (M : more (t ++ rest) = true) by (now apply (writes_more l e)).
    apply (good_sbind (MAX - 2)%Z rest _ _ p rest _ _ (IH (MAX - 2)%Z (dyn0 H) x w rest U O1 (follow_le t 6 l rest L Ft))).
    + intros r Er E. apply evals_asg; try assumption. right. split; [now apply evals_blanks|exact Er].
    + intros x1 w1 d _ A. destruct Fo as (c0 & r0 & K & OB & _).
      assert (E : evals (MAX - 2) (dyn0 H) (St (b2 ++ t ++ rest) x w) (ROk (St (c0 :: r0) x1 w1) (dyn_of d))).
      { apply evals_blanks; [exact B2|exact M|]. apply A. apply afters_stop; [exact K|unfold MAX; lia|]. intros o So. specialize (OB o So). destruct o; cbn in OB; lia. }
      pose proof (assign_agree n d (c0 :: r0) x1 w1) as AA. destruct (assign_t (d_of_int H) n d x1) as [x2|] eqn:AT; cbn [good].
      * intros r Af. apply evals_asg; try assumption. left. exists (St (c0 :: r0) x1 w1), (dyn_of d). split; [exact E|]. rewrite AA.
        now apply (afters_skipped p _ rest (c0 :: r0)).
      * exists (c0 :: r0), XOther. apply evals_asg; try assumption. left. exists (St (c0 :: r0) x1 w1), (dyn_of d). split; [exact E|]. now rewrite AA.
  - (* two statements *)
    cbn [sem]. rewrite <- app_assoc.
    replace ((g1 ++ c :: g2 ++ t2) ++ rest) with (g1 ++ c :: g2 ++ t2 ++ rest) by (now rewrite <- app_assoc, <- app_comm_cons, <- app_assoc).
    assert (Lp : (MAX - 1 <= p)%Z) by (unfold ok in O; lia).
    assert (O1 : ok l1 p) by (pose proof (writes_level _ _ _ W1); unfold ok, MAX in *; lia).
    assert (O2 : ok l2 p) by (pose proof (writes_level _ _ _ W2); unfold ok, MAX in *; lia).
    assert (Ft : follow t2 7 rest).
    { apply (follow_app (t1 ++ g1 ++ c :: g2)); [now apply writes_nonnil in W2|]. rewrite <- !app_assoc. exact Fo. }
    apply (good_sbind p _ _ _ p rest _ _ (IH1 p v x w _ U O1 (follow_gap t1 g1 l1 c (g2 ++ t2 ++ rest) G1 C))); [auto|].
    intros x1 w1 v1 Q1 A1.
    assert (U1 : wf x1) by (exact (sem_wf e1 x w x1 w1 v1 U Q1)).
    apply (good_mono p rest _ _ _ (IH2 p (dyn_of v1) x1 w1 rest U1 O2 (follow_le t2 7 l2 rest ltac:(pose proof (writes_level _ _ _ W2); lia) Ft))).
    intros r E. apply A1. replace (g1 ++ c :: g2 ++ t2 ++ rest) with ((g1 ++ c :: g2) ++ t2 ++ rest) by (now rewrite <- app_assoc).
    apply gap_afters; [exact Lp| |now apply app_nonnil|].
    + apply Forall_app. split; [exact G1|constructor; [right; exact C|exact G2]].
    + apply afters_next; [exact Lp|now apply (writes_idle l2 e2)|exact E].
  - (* leading separators *)
    rewrite <- app_assoc. assert (Lp : (MAX - 1 <= p)%Z) by (unfold ok in O; lia).
    assert (O1 : ok l p) by (pose proof (writes_level _ _ _ W); unfold ok, MAX in *; lia).
    assert (Ft : follow t 7 rest) by (apply (follow_app g); [now apply writes_nonnil in W|exact Fo]).
    apply (good_mono p rest _ _ _ (IH p v x w rest U O1 (follow_le t 7 l rest ltac:(pose proof (writes_level _ _ _ W); lia) Ft))).
    intros r E. apply evals_gap; [exact Lp|exact G|now apply (writes_idle l e)|exact E].
  - (* trailing separators *)
    rewrite <- app_assoc. assert (Lp : (MAX - 1 <= p)%Z) by (unfold ok in O; lia).
    assert (O1 : ok l p) by (pose proof (writes_level _ _ _ W); unfold ok, MAX in *; lia).
    pose proof (follow_trail t g l rest G ltac:(pose proof (writes_level _ _ _ W); lia) Fo) as Ft.
    apply (good_change p _ _ _ p rest _ (IH p v x w _ U O1 Ft)); [auto|].
    intros x1 w1 d _ A r Af. apply A. now apply gap_afters.
Qed.
End Proofs.
