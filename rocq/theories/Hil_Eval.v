(** Proofs about the evaluation of HIL text. *)
From Coq Require Import List ZArith Bool Ascii String Lia.
From Verif Require Import Outcome Math_Model Math_Spec Math_Proofs Namespace_Model Namespace_Spec Namespace_Proofs Hil_Model Hil_Spec Hil_Lex.
Import ListNotations.
Open Scope list_scope.
Local Open Scope char_scope.

Section Eval.
Variable H : host.
Notation res := (res H).
Notation st := (st H).
Notation dyn := (dyn H).
Notation St := (St H).

(** ** Unfolding *)
Definition tail (f : nat) (p : Z) (v : dyn) (s : st) : res dyn :=
  bindR (binops H f p v s) (fun s v => if (p <? MAX - 1)%Z then ROk s v else eval H f p v s).
Definition after (f : nat) (p : Z) (v : dyn) (s : st) : res dyn := bindR (skip H s) (fun s _ => tail f p v s).

Definition token (f : nat) (p : Z) (v : dyn) (s : st) (c : ascii) : res dyn :=
  if c =? "$" then
    bindR (pop H s) (fun s _ => bindR (eval H f 0 (dyn0 H) s) (fun s d =>
      match ds d with Some x => eval H f p v (set_text s (x ++ text s)) | None => RHil s MSubst end))
  else if (c =? LF) || (c =? ";") then bindR (pop H s) (fun s _ => after f p v s)
  else if c =? "(" then bindR (pop H s) (fun s _ => bindR (eval H f MAX (dyn0 H) s) (fun s v => after f p v s))
  else if (p =? MAX)%Z && (c =? ")") then bindR (pop H s) (fun s _ => ROk s v)
  else if is_digit c || (c =? ".") then bindR (number_token H s) (fun s v => after f p v s)
  else if c =? "{" then bindR (pop H s) (fun s _ => bindR (string_token H s) (fun s v => after f p v s))
  else if is_alpha c || (c =? "_") then
    match read_name [] (text s) with
    | None => RUb UbText
    | Some (n, t) =>
        let s := set_text s t in
        match find_unop n with
        | Some u => bindR (eval H f 0 (dyn0 H) s) (fun s d => bindR (un_op H u d s) (fun s v => after f p v s))
        | None =>
            bindR (skip H s) (fun s _ => bindR (front H s) (fun s c =>
            match (if c =? "=" then option_map negb (char_is 1 "=" (text s)) else Some false) with
            | None => RUb UbText
            | Some true => bindR (pop H s) (fun s _ => bindR (eval H f (MAX - 2)%Z (dyn0 H) s) (fun s d =>
                             bindR (assign_dyn H n d s) (fun s _ => after f p d s)))
            | Some false => bindR (eval_var H n s) (fun s v => after f p v s)
            end))
        end
    end
  else match find_unop [c] with
       | Some u => bindR (pop H s) (fun s _ => bindR (eval H f 0 (dyn0 H) s) (fun s d => bindR (un_op H u d s) (fun s v => after f p v s)))
       | None => RHil s MParse
       end.

Lemma eval_S : forall f p v s, eval H (S f) p v s =
  if more (text s) then bindR (skip H s) (fun s _ => bindR (front H s) (fun s c => token f p v s c)) else ROk s v.
Proof. reflexivity. Qed.
Lemma binops_S : forall f p v s, binops H (S f) p v s =
  match select_op (text s) with
  | None => ROk s v
  | Some b => if (op_prec b <? p)%Z then
      bindR (eval H f (op_prec b) (dyn0 H) (set_text s (skipn (List.length (op_name b)) (text s)))) (fun s d =>
      bindR (bin_op H b v d s) (fun s v => bindR (skip H s) (fun s _ => binops H f p v s)))
    else ROk s v
  end.
Proof. reflexivity. Qed.

(** ** Fuel *)
Definition le_res {A} (r r' : res A) : Prop := r = RFuel \/ r = r'.
Lemma le_refl : forall A (r : res A), le_res r r.
Proof. intros. now right. Qed.
Lemma le_bind : forall A B (r r' : res A) (k k' : st -> A -> res B), le_res r r' -> (forall s a, le_res (k s a) (k' s a)) ->
  le_res (bindR r k) (bindR r' k').
Proof. intros A B r r' k k' [->| ->] K; [now left|]. destruct r'; cbn; try (now right). apply K. Qed.

Lemma fuel_mono : forall f, (forall p v s, le_res (eval H f p v s) (eval H (S f) p v s)) /\
                            (forall p v s, le_res (binops H f p v s) (binops H (S f) p v s)).
Proof.
  induction f as [|f [IHe IHb]]; [split; intros; now left|].
  assert (T : forall p v s, le_res (tail f p v s) (tail (S f) p v s)).
  { intros. apply le_bind; [apply IHb|]. intros. destruct (p <? MAX - 1)%Z; [apply le_refl|apply IHe]. }
  assert (A : forall p v s, le_res (after f p v s) (after (S f) p v s)).
  { intros. apply le_bind; [apply le_refl|]. intros. apply T. }
  split; intros p v s.
  - rewrite (eval_S (S f)), (eval_S f). destruct (more (text s)); [|apply le_refl].
    apply le_bind; [apply le_refl|]. intros s1 _. apply le_bind; [apply le_refl|]. intros s2 c. unfold token.
    repeat match goal with
    | |- le_res (if ?b then _ else _) (if ?b then _ else _) => destruct b
    | |- le_res (bindR ?r _) (bindR ?r _) => apply le_bind; [apply le_refl|intros]
    | |- le_res (bindR (eval H _ _ _ _) _) _ => apply le_bind; [apply IHe|intros]
    | |- le_res (after _ _ _ _) _ => apply A
    | |- le_res (eval H _ _ _ _) _ => apply IHe
    | |- le_res (match ?x with _ => _ end) (match ?x with _ => _ end) => destruct x
    | |- le_res ?r ?r => apply le_refl
    | |- le_res (let s := _ in _) _ => cbv zeta
    end.
  - rewrite (binops_S (S f)), (binops_S f). destruct (select_op (text s)); [|apply le_refl]. destruct (op_prec b <? p)%Z; [|apply le_refl].
    apply le_bind; [apply IHe|]. intros. apply le_bind; [apply le_refl|]. intros. apply le_bind; [apply le_refl|]. intros. apply IHb.
Qed.

Lemma eval_mono : forall f g p v s r, (f <= g)%nat -> eval H f p v s = r -> r <> RFuel -> eval H g p v s = r.
Proof.
  intros f g p v s r L E N. induction L as [|g L IH]; [exact E|].
  destruct (proj1 (fuel_mono g) p v s) as [F|F]; congruence.
Qed.
Lemma binops_mono : forall f g p v s r, (f <= g)%nat -> binops H f p v s = r -> r <> RFuel -> binops H g p v s = r.
Proof.
  intros f g p v s r L E N. induction L as [|g L IH]; [exact E|].
  destruct (proj2 (fuel_mono g) p v s) as [F|F]; congruence.
Qed.
Lemma tail_mono : forall f g p v s r, (f <= g)%nat -> tail f p v s = r -> r <> RFuel -> tail g p v s = r.
Proof.
  intros f g p v s r L E N. unfold tail in *. destruct (binops H f p v s) eqn:B;
  try (rewrite (binops_mono f g _ _ _ _ L B) by discriminate); cbn [bindR] in *; try exact E; [|congruence].
  destruct (p <? MAX - 1)%Z; [exact E|]. now apply (eval_mono f g).
Qed.

(** ** Runs: the code returns [r] *)
Definition evals p v s r := exists f, eval H f p v s = r /\ r <> RFuel.
Definition tails p v s r := exists f, tail f p v s = r /\ r <> RFuel.
Definition afters p v s r := exists f, after f p v s = r /\ r <> RFuel.

Lemma evals_det : forall p v s r r', evals p v s r -> evals p v s r' -> r = r'.
Proof.
  intros p v s r r' (f & E & N) (g & E' & N'). destruct (Nat.le_gt_cases f g) as [L|L].
  - rewrite <- E'. symmetry. now apply (eval_mono f g).
  - rewrite <- E. apply (eval_mono g f); [lia|exact E'|exact N'].
Qed.

Lemma afters_skip : forall p v t r x w res, skip_spaces t = Some r -> tails p v (St r x w) res -> afters p v (St t x w) res.
Proof. intros p v t r x w q E (f & T & N). exists f. split; [|exact N]. unfold after, skip. cbn. rewrite E. exact T. Qed.
Lemma afters_inv : forall p v t x w res, afters p v (St t x w) res ->
  match skip_spaces t with Some r => tails p v (St r x w) res | None => res = RUb UbText end.
Proof.
  intros p v t x w q (f & T & N). unfold after, skip in T. cbn in T. destruct (skip_spaces t) as [r|]; cbn in T; [|congruence].
  exists f. auto.
Qed.

(* errors pass through binds *)
Definition is_err (r : res dyn) : Prop := match r with ROk _ _ | RFuel => False | _ => True end.
Lemma bind_err : forall r k, is_err r -> bindR r k = r.
Proof. intros r k E; destruct r; cbn in *; tauto || reflexivity. Qed.
Lemma err_not_fuel : forall r, is_err r -> r <> RFuel.
Proof. intros r E; destruct r; cbn in *; try contradiction; discriminate. Qed.

Lemma tails_stop : forall p v t x w, (p < MAX - 1)%Z -> (forall b, select_op t = Some b -> (p <= op_prec b)%Z) ->
  tails p v (St t x w) (ROk (St t x w) v).
Proof.
  intros p v t x w L S. exists 1%nat. split; [|discriminate]. unfold tail. rewrite binops_S. cbn [text].
  destruct (select_op t) as [b|]; [|cbn [bindR]; destruct (Z.ltb_spec p (MAX - 1)); [reflexivity|lia]].
  specialize (S b eq_refl). destruct (Z.ltb_spec (op_prec b) p); [lia|]. cbn [bindR]. destruct (Z.ltb_spec p (MAX - 1)); [reflexivity|lia].
Qed.
Lemma tails_loop : forall p v t x w r, (MAX - 1 <= p)%Z -> select_op t = None -> evals p v (St t x w) r -> tails p v (St t x w) r.
Proof.
  intros p v t x w r L So (f & E & N). exists (S f). split; [|exact N]. unfold tail. rewrite binops_S. cbn [text]. rewrite So. cbn [bindR].
  destruct (Z.ltb_spec p (MAX - 1)); [lia|]. apply (eval_mono f); [lia|exact E|exact N].
Qed.
Lemma tails_op : forall p v o u x w s2 d2 x3 w3 v3 t3 t4 r,
  select_op (op_name o ++ u) = Some o -> (op_prec o < p)%Z ->
  evals (op_prec o) (dyn0 H) (St u x w) (ROk s2 d2) ->
  bin_op H o v d2 s2 = ROk (St t3 x3 w3) v3 -> skip_spaces t3 = Some t4 ->
  tails p v3 (St t4 x3 w3) r -> tails p v (St (op_name o ++ u) x w) r.
Proof.
  intros p v o u x w s2 d2 x3 w3 v3 t3 t4 r So L (f & E & _) B K (g & T & N).
  exists (S (f + g)). split; [|exact N]. unfold tail in *. rewrite binops_S. cbn [text]. rewrite So.
  destruct (Z.ltb_spec (op_prec o) p); [|lia]. unfold set_text. cbn [text vars world].
  rewrite skipn_app, skipn_all, Nat.sub_diag. cbn [skipn app].
  rewrite (eval_mono f (f + g) _ _ _ _ ltac:(lia) E ltac:(discriminate)). cbn [bindR]. rewrite B. cbn [bindR]. unfold skip. cbn [text].
  rewrite K. cbn [bindR]. unfold set_text. cbn [vars world].
  assert (T' : tail (f + g) p v3 (St t4 x3 w3) = r) by (apply (tail_mono g); [lia|exact T|exact N]).
  unfold tail in T'. destruct (binops H (f + g) p v3 (St t4 x3 w3)) eqn:Q; cbn [bindR] in *; try exact T'.
  destruct (p <? MAX - 1)%Z; [exact T'|]. apply (eval_mono (f + g)); [lia|exact T'|exact N].
Qed.
Lemma tails_op_err1 : forall p v o u x w r, select_op (op_name o ++ u) = Some o -> (op_prec o < p)%Z ->
  evals (op_prec o) (dyn0 H) (St u x w) r -> is_err r -> tails p v (St (op_name o ++ u) x w) r.
Proof.
  intros p v o u x w r So L (f & E & N) Er. exists (S f). split; [|exact N]. unfold tail. rewrite binops_S. cbn [text]. rewrite So.
  destruct (Z.ltb_spec (op_prec o) p); [|lia]. unfold set_text. cbn [text vars world].
  rewrite skipn_app, skipn_all, Nat.sub_diag. cbn [skipn app]. rewrite E. rewrite !bind_err by (rewrite ?bind_err; assumption). reflexivity.
Qed.
Lemma tails_op_err2 : forall p v o u x w s2 d2 r, select_op (op_name o ++ u) = Some o -> (op_prec o < p)%Z ->
  evals (op_prec o) (dyn0 H) (St u x w) (ROk s2 d2) -> bin_op H o v d2 s2 = r -> is_err r -> tails p v (St (op_name o ++ u) x w) r.
Proof.
  intros p v o u x w s2 d2 r So L (f & E & _) B Er. exists (S f). split; [|now apply err_not_fuel]. unfold tail. rewrite binops_S. cbn [text]. rewrite So.
  destruct (Z.ltb_spec (op_prec o) p); [|lia]. unfold set_text. cbn [text vars world].
  rewrite skipn_app, skipn_all, Nat.sub_diag. cbn [skipn app]. rewrite E. cbn [bindR]. rewrite B.
  rewrite !bind_err by (rewrite ?bind_err; assumption). reflexivity.
Qed.

(* entering the loop: blanks are skipped *)
Lemma more_cons : forall c d t, more (c :: d :: t) = true.
Proof. intros. reflexivity. Qed.
Lemma more_app : forall (a b : str), a <> [] -> b <> [] -> more (a ++ b) = true.
Proof. intros [|c a] [|d b] A B; try congruence. unfold more. apply Nat.ltb_lt. rewrite app_length. cbn. lia. Qed.
Lemma more_pre : forall (a b : str), more b = true -> more (a ++ b) = true.
Proof. intros a b M. unfold more in *. apply Nat.ltb_lt. apply Nat.ltb_lt in M. rewrite app_length. lia. Qed.

Lemma evals_token : forall p v c t x w r, c <> " " -> t <> [] ->
  (exists f, token f p v (St (c :: t) x w) c = r /\ r <> RFuel) -> evals p v (St (c :: t) x w) r.
Proof.
  intros p v c t x w r N T (f & E & F). exists (S f). split; [|exact F]. rewrite eval_S. cbn [text].
  destruct t as [|d t]; [congruence|]. rewrite more_cons. unfold skip. cbn [text]. rewrite skip_nonblank by exact N. cbn [bindR].
  unfold set_text. cbn [vars world]. cbn [front text bindR]. exact E.
Qed.
Lemma evals_blanks : forall p v b t x w r, blanks b -> more t = true -> evals p v (St t x w) r -> evals p v (St (b ++ t) x w) r.
Proof.
  intros p v b t x w r B M (f & E & F). exists f. split; [|exact F]. destruct f as [|f]; [cbn in E; congruence|].
  rewrite eval_S in *. cbn [text] in *. rewrite M in E. rewrite more_pre by exact M. unfold skip in *. cbn [text] in *.
  rewrite skip_blanks by exact B. exact E.
Qed.

(** ** Operators agree with the specification *)
Notation dyn_of := (dyn_of H).

Definition agree (t : str) (a : sres H (tvalue (D H))) (r : res dyn) : Prop :=
  match a with
  | SOk x w v => r = ROk (St t x w) (dyn_of v)
  | SHil x w => exists m, r = RHil (St t x w) m
  | SExc x w => exists k, r = RExc (St t x w) k
  | SUndef => exists k, r = RUb k
  | SSilent => True
  end.

Lemma in_int_fits : forall z, in_int z = fits z.
Proof.
  intros z. unfold in_int, fits. change (2 ^ 31)%Z with 2147483648%Z. change (- (2147483648))%Z with (-2147483648)%Z. f_equal.
  destruct (Z.leb_spec z 2147483647), (Z.ltb_spec z 2147483648); lia || reflexivity.
Qed.
Lemma chk_agree : forall z t x w, agree t (ret_int H z x w) (lift_int H (chk z) (St t x w)).
Proof. intros. unfold ret_int, chk, lift_int. rewrite in_int_fits. destruct (fits z); cbn; eauto. Qed.

Lemma arith_agree : forall o v1 v2 t x w, agree t (arith H o v1 v2 x w) (arithmetic_op H o (dyn_of v1) (dyn_of v2) (St t x w)).
Proof.
  intros o v1 v2 t x w. destruct v1 as [a|a|a], v2 as [b|b|b]; cbn; eauto.
  destruct o; cbn [int_arith]; try apply chk_agree.
  - destruct (b =? 0)%Z; [cbn; eauto|apply chk_agree].
  - unfold int_power. destruct (Z.leb_spec 0 b) as [L|L].
    + destruct (pow_int_nonneg a b L) as [P1 P2]. unfold ret_int.
      assert (Q : fits_int (a ^ b) <-> fits (a ^ b) = true).
      { unfold fits_int, fits. rewrite andb_true_iff, !Z.leb_le. lia. }
      destruct (fits (a ^ b)) eqn:F; [rewrite P1 by (now apply Q)|rewrite P2]; cbn; eauto. intros X. apply Q in X. discriminate.
    + rewrite pow_int_neg by exact L. destruct (a =? 0)%Z; cbn; eauto.
Qed.
Lemma cmp_eq : forall c a b, int_cmp c a b = compare_ints c a b.
Proof.
  intros [] a b; cbn; try reflexivity.
  - destruct (Z.leb_spec b a); unfold Z.geb; destruct (Z.compare_spec a b); lia || reflexivity.
  - destruct (Z.ltb_spec b a); unfold Z.gtb; destruct (Z.compare_spec a b); lia || reflexivity.
  - destruct (a =? 0)%Z, (b =? 0)%Z; reflexivity.
Qed.
Lemma cmp_agree : forall c v1 v2 t x w, agree t (compare_num H c v1 v2 x w) (comparison_op H c (dyn_of v1) (dyn_of v2) (St t x w)).
Proof.
  intros c v1 v2 t x w. destruct v1 as [a|a|a], v2 as [b|b|b]; cbn; eauto. now rewrite cmp_eq.
Qed.
Lemma eq_agree : forall v1 v2 t x w, agree t (equal H v1 v2 x w) (general_eq H (dyn_of v1) (dyn_of v2) (St t x w)).
Proof.
  intros v1 v2 t x w. destruct v1 as [a|a|a], v2 as [b|b|b]; cbn; eauto.
Qed.

Lemma concat_agree : forall v1 v2 t x w, (exists a, v1 = VStr a) \/ (exists a, v2 = VStr a) ->
  agree t (concat H v1 v2 x w) (general_add H (dyn_of v1) (dyn_of v2) (St t x w)).
Proof.
  intros v1 v2 t x w K. unfold concat, with_format, general_add, lookup_str.
  assert (E : match ds (dyn_of v1), ds (dyn_of v2) with None, None => False | _, _ => True end).
  { destruct K as [[a ->]|[a ->]]; [destruct v2|destruct v1]; cbn; exact I. }
  cbn [vars]. destruct (find_str (s_ "format_double") x) as [[fd|k]|] eqn:F.
  - destruct v1 as [a|a|a], v2 as [b|b|b]; cbn in E |- *; try contradiction; try (destruct K as [[? K]|[? K]]; discriminate);
    unfold format; try (destruct (d_format H fd _)); cbn; rewrite ?app_nil_r; eauto.
  - exact I.
  - destruct v1, v2; cbn in E |- *; try contradiction; eauto.
Qed.

Lemma bin_agree : forall o v1 v2 t x w, agree t (bin_sem H o v1 v2 x w) (bin_op H o (dyn_of v1) (dyn_of v2) (St t x w)).
Proof.
  intros o v1 v2 t x w. destruct o; cbn [bin_sem bin_op]; try apply arith_agree; try apply cmp_agree.
  - destruct v1 as [a|a|a], v2 as [b|b|b]; cbn; eauto. destruct ((0 <=? b) && (b <=? Z.of_nat (List.length a)))%Z; cbn; eauto.
  - destruct v1 as [a|a|a], v2 as [b|b|b]; cbn; eauto. destruct (b =? 0)%Z; cbn; eauto. rewrite in_int_fits. destruct (fits (Z.quot a b)); cbn; eauto.
  - destruct v1 as [a|a|a], v2 as [b|b|b]; try (apply concat_agree; eauto; fail);
    match goal with |- agree _ _ (general_add _ (dyn_of ?a) (dyn_of ?b) ?s) => change (general_add H (dyn_of a) (dyn_of b) s) with (arithmetic_op H DAdd (dyn_of a) (dyn_of b) s) end; apply arith_agree.
  - apply eq_agree.
  - destruct v1 as [a|a|a], v2 as [b|b|b]; cbn; eauto;
    match goal with |- context [truth ?b] => destruct b; reflexivity end.
Qed.

Lemma print_agree : forall v suffix t x w, agree t (print_sem H v suffix x w)
  (bindR (general_add H (dyn_of v) (dyn_s H suffix) (St t x w)) (fun s r => print_op H r s)).
Proof.
  intros v suffix t x w. unfold print_sem, with_format, print_op, general_add, lookup_str, format. generalize (s_ "format_double"). intros fn. cbn [vars].
  destruct (find_str fn x) as [[fd|k]|] eqn:F.
  - destruct v as [a|a|a]; cbn; rewrite ?F; cbn;
    try (destruct (d_format H fd a); cbn; eauto; rewrite ?F; cbn; eauto);
    reflexivity.
  - exact I.
  - destruct v; cbn; eauto.
Qed.
Lemma print1_agree : forall v t x w, agree t (print_sem H v [] x w) (print_op H (dyn_of v) (St t x w)).
Proof.
  intros v t x w. unfold print_sem, with_format, print_op, general_add, lookup_str. cbn [vars ds dyn_s].
  destruct (find_str (s_ "format_double") x) as [[fd|k]|] eqn:F.
  - destruct v as [a|a|a]; cbn; unfold format; try (destruct (d_format H fd a)); cbn; rewrite ?app_nil_r; eauto.
  - exact I.
  - destruct v; cbn; eauto.
Qed.

Lemma un_agree : forall u v t x w, agree t (un_sem H u v x w) (un_op H u (dyn_of v) (St t x w)).
Proof.
  intros u v t x w.
  destruct u; try (destruct v as [a|a|a]; cbn; eauto; fail).
  - destruct v as [a|a|a]; cbn; eauto. unfold ret_int, chk. rewrite in_int_fits. destruct (fits (- a)); cbn; eauto.
  - destruct v as [a|a|a]; cbn; eauto. unfold ret_int, chk. rewrite in_int_fits. destruct (fits (Z.abs a)); cbn; eauto.
  - destruct v as [a|a|a]; cbn; eauto. destruct (w_read H a w); cbn; eauto.
  - apply print1_agree.
  - apply print_agree.
  - destruct v as [a|a|a]; cbn; eauto. destruct (w_shell H a w); cbn; eauto.
Qed.
End Eval.
