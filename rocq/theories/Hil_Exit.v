(** Proofs: the text can only become empty by reading the variable [exit]. *)
From Coq Require Import List ZArith Bool Ascii String Lia.
From Verif Require Import Outcome Math_Model Namespace_Model Namespace_Spec Namespace_Proofs Hil_Model Hil_Spec Hil_Lex Hil_Eval Hil_Proofs Hil_Exec.
Import ListNotations.
Open Scope list_scope.
Local Open Scope char_scope.

Section Namespace.
Context {D : Type}.
Implicit Types x y : space D.

Lemma defused_exists : forall x x' n, defused x x' -> exists_ x' n = exists_ x n.
Proof. intros x x' n E. inversion E as [a b A B C S]; subst. unfold exists_. rewrite A, B, C. destruct (strs x n); reflexivity. Qed.
Lemma defused_forallb : forall l l' n, Forall2 defused l l' -> forallb (fun y => exists_ y n) l' = forallb (fun y : space D => exists_ y n) l.
Proof. intros l l' n F. induction F as [|y y' l l' E F IH]; [reflexivity|]. cbn. now rewrite (defused_exists y y'), IH. Qed.
Lemma defused_recursive : forall x x' n, defused x x' -> exists_recursive x' n = exists_recursive x n.
Proof.
  intros x x' n E. unfold exists_recursive. rewrite (defused_exists x x' n E). inversion E as [a b A B C S]; subst.
  destruct (exists_ x n); [reflexivity|]. destruct S as [|y y' l l' Ey S]; [reflexivity|]. apply defused_forallb. now constructor.
Qed.
Lemma defused_find : forall n x x', defused x x' ->
  find_int n x' = find_int n x /\ find_dbl n x' = find_dbl n x /\ find_str n x' = option_map defuse (find_str n x).
Proof.
  intros n. fix IH 3. intros x x' E. pose proof (defused_exists x x' n E) as X. inversion E as [a b A B C S]; subst.
  rewrite (find_int_eq n x), (find_int_eq n x'), (find_dbl_eq n x), (find_dbl_eq n x'), (find_str_eq n x), (find_str_eq n x').
  rewrite A, B, C, X.
  assert (P : match super_pick n x, super_pick n x' with Some y, Some y' => find_int n y' = find_int n y /\ find_dbl n y' = find_dbl n y /\ find_str n y' = option_map defuse (find_str n y)
              | None, None => True | _, _ => False end).
  { unfold super_pick. clear A B C X E. revert S. generalize (supers x), (supers x'). fix IHl 3. intros l l' S. destruct S as [|y y' l l' Ey S]; [exact I|].
    cbn. rewrite (defused_recursive y y' n Ey). destruct (exists_recursive y n); [exact (IH y y' Ey)|exact (IHl l l' S)]. }
  destruct (super_pick n x) as [y|], (super_pick n x') as [y'|]; try contradiction.
  - destruct P as (P1 & P2 & P3). rewrite P1, P2, P3. destruct (ints x n), (dbls x n), (strs x n), (exists_ x n); repeat split.
  - destruct (ints x n), (dbls x n), (strs x n), (exists_ x n); repeat split.
Qed.
Lemma defused_put_str : forall x x' n z, defused x x' ->
  defused (Space (ints x) (dbls x) (put (strs x) n (Value z)) (supers x)) (Space (ints x') (dbls x') (put (strs x') n (Value z)) (supers x')).
Proof. intros x x' n z E. inversion E as [a b A B C S]; subst. constructor; cbn; auto. intros k. unfold put. destruct (str_eqb k n); [reflexivity|apply C]. Qed.
Lemma defused_put_int : forall x x' n v, defused x x' ->
  defused (Space (put (ints x) n v) (dbls x) (strs x) (supers x)) (Space (put (ints x') n v) (dbls x') (strs x') (supers x')).
Proof. intros x x' n z E. inversion E as [a b A B C S]; subst. constructor; cbn; auto. intros k. unfold put. destruct (str_eqb k n); [reflexivity|apply A]. Qed.
Lemma defused_put_dbl : forall x x' n v, defused x x' ->
  defused (Space (ints x) (put (dbls x) n v) (strs x) (supers x)) (Space (ints x') (put (dbls x') n v) (strs x') (supers x')).
Proof. intros x x' n z E. inversion E as [a b A B C S]; subst. constructor; cbn; auto. intros k. unfold put. destruct (str_eqb k n); [reflexivity|apply B]. Qed.

Definition both (o o' : option (space D)) : Prop :=
  match o, o' with Some x, Some x' => defused x x' | None, None => True | _, _ => False end.
Lemma defused_assign : forall conv n v x x', defused x x' -> both (assign_t conv n v x) (assign_t conv n v x').
Proof.
  intros conv n v x x' E. pose proof (defused_exists x x' n E) as X. pose proof E as E0. inversion E0 as [a b A B C S]; subst.
  destruct v as [z|z|z]; cbn; unfold assign_int, assign_dbl, assign_str, set_int, set_dbl, set_str, create_int, create_dbl, create_str, set_var; rewrite ?A, ?B, ?C, ?X.
  - destruct (ints x n) as [[q|q]|]; cbn; try exact I; [now apply defused_put_int|]. destruct (dbls x n) as [[q|q]|]; cbn; try exact I; [now apply defused_put_dbl|].
    destruct (exists_ x n); cbn; [exact I|now apply defused_put_int].
  - destruct (dbls x n) as [[q|q]|]; cbn; try exact I; [now apply defused_put_dbl|]. destruct (exists_ x n); cbn; [exact I|now apply defused_put_dbl].
  - destruct (strs x n) as [[q|[| |q]]|]; cbn; try exact I; [now apply defused_put_str|]. destruct (exists_ x n); cbn; [exact I|now apply defused_put_str].
Qed.
End Namespace.

Section Exit.
Variable H : host.
Notation res := (res H).
Notation st := (st H).
Notation dyn := (dyn H).
Notation St := (St H).

Lemma defused_no_exit : forall x x', defused x x' -> no_exit H x'.
Proof.
  fix IH 3. intros x x' E. inversion E as [a b A B C S]; subst. constructor.
  - intros n Q. rewrite C in Q. destruct (strs x n) as [[z|[| |k]]|]; discriminate.
  - clear A B C E. revert S. generalize (supers x), (supers x'). fix IHl 3. intros l l' S. destruct S as [|y y' l l' Ey S]; [contradiction|].
    intros z [<-|I]; [exact (IH y y' Ey)|exact (IHl l l' S z I)].
Qed.

Definition sim (s s' : st) : Prop := text s' = text s /\ world s' = world s /\ defused (vars s) (vars s').
(** [r'], obtained with the defused variables, is the same result, or the exception raised by reading [exit] *)
Definition rel {A} (r r' : res A) : Prop :=
  (exists s, r' = RExc s XOther) \/
  match r, r' with
  | ROk s a, ROk s' a' => sim s s' /\ a' = a
  | RHil s m, RHil s' m' => sim s s' /\ m' = m
  | RExc _ m, RExc _ m' => m' = m
  | RUb k, RUb k' => k' = k
  | RFuel, RFuel => True
  | _, _ => False
  end.
Lemma rel_bind : forall A B (r r' : res A) (k k' : st -> A -> res B), rel r r' -> (forall s s' a, sim s s' -> rel (k s a) (k' s' a)) -> rel (bindR r k) (bindR r' k').
Proof.
  intros A B r r' k k' [(s & ->)|R] K; [left; eexists; reflexivity|].
  destruct r, r'; try contradiction; cbn in *; try (right; exact R); destruct R as [S ->]. now apply K.
Qed.
Lemma rel_ok : forall A s s' (a : A), sim s s' -> rel (ROk s a) (ROk s' a).
Proof. intros. right. now split. Qed.
Lemma rel_hil : forall A s s' m, sim s s' -> rel (@RHil H A s m) (RHil s' m).
Proof. intros. right. now split. Qed.
Lemma rel_exc : forall A s s' m, rel (@RExc H A s m) (RExc s' m).
Proof. intros. right. reflexivity. Qed.
Lemma rel_ub : forall A k, rel (@RUb H A k) (RUb k).
Proof. intros. right. reflexivity. Qed.
Lemma rel_fuel : forall A, rel (@RFuel H A) RFuel.
Proof. intros. right. exact I. Qed.
Lemma sim_text : forall s s' t, sim s s' -> sim (set_text s t) (set_text s' t).
Proof. intros s s' t (A & B & C). (split; [|split]); try assumption; reflexivity. Qed.
Lemma sim_world : forall s s' w, sim s s' -> sim (set_world s w) (set_world s' w).
Proof. intros s s' t (A & B & C). (split; [|split]); try assumption; reflexivity. Qed.

Ltac base := first [apply rel_ok | apply rel_hil | apply rel_exc | apply rel_ub | apply rel_fuel]; repeat (apply sim_text || apply sim_world); try assumption.
Ltac cases := repeat match goal with
  | |- rel (bindR _ _) _ => fail 1
  | |- rel (match ?y with _ => _ end) (match ?y with _ => _ end) => destruct y
  | |- rel (if ?y then _ else _) (if ?y then _ else _) => destruct y
  end; try base.

Lemma skip_rel : forall s s', sim s s' -> rel (skip H s) (skip H s').
Proof. intros s s' S. unfold skip. rewrite (proj1 S). cases. Qed.
Lemma pop_rel : forall s s', sim s s' -> rel (pop H s) (pop H s').
Proof. intros s s' S. unfold pop. rewrite (proj1 S). cases. Qed.
Lemma front_rel : forall s s', sim s s' -> rel (front H s) (front H s').
Proof. intros s s' S. unfold front. rewrite (proj1 S). cases. Qed.
Lemma get_int_rel : forall v s s', sim s s' -> rel (get_int H v s) (get_int H v s').
Proof. intros v s s' S. unfold get_int. destruct S as (A & B & C). rewrite B. assert (sim s s') by ((split; [|split]); assumption). cases. Qed.
Lemma get_dbl_rel : forall v s s', sim s s' -> rel (get_dbl H v s) (get_dbl H v s').
Proof. intros v s s' S. unfold get_dbl. destruct S as (A & B & C). rewrite B. assert (sim s s') by ((split; [|split]); assumption). cases. Qed.
Lemma get_str_rel : forall v s s', sim s s' -> rel (get_str H v s) (get_str H (defuse v) s').
Proof.
  intros v s s' S. destruct v as [z|[| |k]]; cbn [defuse get_str]; [base|left; eexists; reflexivity|base|].
  destruct S as (A & B & C). rewrite B. assert (sim s s') by ((split; [|split]); assumption). cases.
Qed.
Lemma lookup_int_rel : forall n s s', sim s s' -> rel (lookup_int H n s) (lookup_int H n s').
Proof.
  intros n s s' S. unfold lookup_int. destruct (defused_find n _ _ (proj2 (proj2 S))) as (-> & _). cases.
  apply rel_bind; [now apply get_int_rel|]. intros; base.
Qed.
Lemma lookup_dbl_rel : forall n s s', sim s s' -> rel (lookup_dbl H n s) (lookup_dbl H n s').
Proof.
  intros n s s' S. unfold lookup_dbl. destruct (defused_find n _ _ (proj2 (proj2 S))) as (_ & -> & _). cases.
  - apply rel_bind; [now apply get_dbl_rel|]. intros; base.
  - apply rel_bind; [now apply get_int_rel|]. intros; base.
Qed.
Lemma lookup_str_rel : forall n s s', sim s s' -> rel (lookup_str H n s) (lookup_str H n s').
Proof.
  intros n s s' S. unfold lookup_str. destruct (defused_find n _ _ (proj2 (proj2 S))) as (_ & _ & ->). destruct (find_str n (vars s)) as [v|]; cbn [option_map]; [|base].
  apply rel_bind; [now apply get_str_rel|]. intros; base.
Qed.
Lemma eval_var_rel : forall n s s', sim s s' -> rel (eval_var H n s) (eval_var H n s').
Proof.
  intros n s s' S. unfold eval_var. rewrite (defused_recursive _ _ n (proj2 (proj2 S))). destruct (exists_recursive (vars s) n); [|base].
  apply rel_bind; [now apply lookup_int_rel|]. intros s1 s1' i S1. apply rel_bind; [destruct i; [base|now apply lookup_dbl_rel]|].
  intros s2 s2' d S2. apply rel_bind; [now apply lookup_str_rel|]. intros; base.
Qed.
Lemma assign_opt_rel : forall A (f : A -> space (D H) -> option (space (D H))) o s s',
  (forall a x x', defused x x' -> both (f a x) (f a x')) -> sim s s' -> rel (assign_opt H f o s) (assign_opt H f o s').
Proof.
  intros A f [a|] s s' K S; cbn; [|base]. specialize (K a _ _ (proj2 (proj2 S))). destruct (f a (vars s)), (f a (vars s')); try contradiction; base.
  destruct S as (A1 & B & C). (split; [|split]); try assumption; reflexivity.
Qed.
Lemma assign_dyn_rel : forall n d s s', sim s s' -> rel (assign_dyn H n d s) (assign_dyn H n d s').
Proof.
  intros n d s s' S. unfold assign_dyn. apply rel_bind; [apply assign_opt_rel; [|exact S]|intros s1 s1' _ S1; apply rel_bind; [apply assign_opt_rel; [|exact S1]|intros s2 s2' _ S2; apply assign_opt_rel; [|exact S2]]].
  - intros a x x' E. exact (defused_assign (d_of_int H) n (VInt a) x x' E).
  - intros a x x' E. exact (defused_assign (d_of_int H) n (VDbl a) x x' E).
  - intros a x x' E. exact (defused_assign (d_of_int H) n (VStr a) x x' E).
Qed.
Lemma arithmetic_rel : forall a o0 o1 s s', sim s s' -> rel (arithmetic_op H a o0 o1 s) (arithmetic_op H a o0 o1 s').
Proof. intros a o0 o1 s s' S. unfold arithmetic_op, lift_int. cases. Qed.
Lemma comparison_rel : forall a o0 o1 s s', sim s s' -> rel (comparison_op H a o0 o1 s) (comparison_op H a o0 o1 s').
Proof. intros a o0 o1 s s' S. unfold comparison_op. cases. Qed.
Lemma general_eq_rel : forall o0 o1 s s', sim s s' -> rel (general_eq H o0 o1 s) (general_eq H o0 o1 s').
Proof. intros o0 o1 s s' S. unfold general_eq. cases. now apply comparison_rel. Qed.
Lemma general_add_rel : forall o0 o1 s s', sim s s' -> rel (general_add H o0 o1 s) (general_add H o0 o1 s').
Proof.
  intros o0 o1 s s' S. unfold general_add. destruct (ds o0) as [x|], (ds o1) as [y|]; try (now apply arithmetic_rel);
  (apply rel_bind; [now apply lookup_str_rel|]; intros s1 s1' [fd|] S1; [|base]; cbv zeta; apply rel_bind;
   [|intros; base]; unfold format; match goal with |- rel (match ?y with Some _ => _ | None => _ end) _ => destruct y end; [|base];
   apply rel_bind; [cases|intros; base]).
Qed.
Lemma bin_op_rel : forall b o0 o1 s s', sim s s' -> rel (bin_op H b o0 o1 s) (bin_op H b o0 o1 s').
Proof.
  intros b o0 o1 s s' S. destruct b; cbn [bin_op]; try (now apply arithmetic_rel); try (now apply comparison_rel).
  - unfold index_op. cases.
  - unfold mod_op. cases.
  - now apply general_add_rel.
  - now apply general_eq_rel.
  - apply rel_bind; [now apply general_eq_rel|]. intros s1 s1' v S1. cases.
Qed.
Lemma numeric_rel : forall f v s s', sim s s' -> rel (numeric_unary H f v s) (numeric_unary H f v s').
Proof. intros f v s s' S. unfold numeric_unary. cases. Qed.
Lemma round_rel : forall v s s', sim s s' -> rel (round_op H v s) (round_op H v s').
Proof. intros v s s' S. unfold round_op. apply rel_bind; [now apply numeric_rel|]. intros s1 s1' d S1. cases. Qed.
Lemma print_rel : forall v s s', sim s s' -> rel (print_op H v s) (print_op H v s').
Proof.
  intros v s s' S. unfold print_op. apply rel_bind; [now apply general_add_rel|]. intros s1 s1' d S1. destruct S1 as (A & B & C). rewrite B.
  assert (sim s1 s1') by ((split; [|split]); assumption). cases.
Qed.
Lemma un_op_rel : forall u v s s', sim s s' -> rel (un_op H u v s) (un_op H u v s').
Proof.
  intros u v s s' S. destruct u; cbn [un_op]; try (now apply numeric_rel); try (now apply print_rel); try (now apply round_rel); try (cases; fail).
  - apply rel_bind; [now apply numeric_rel|]. intros; now apply round_rel.
  - apply rel_bind; [now apply numeric_rel|]. intros; now apply round_rel.
  - destruct S as (A & B & C). rewrite B. assert (sim s s') by ((split; [|split]); assumption). cases.
  - apply rel_bind; [now apply general_add_rel|]. intros; now apply print_rel.
  - destruct S as (A & B & C). rewrite B. assert (sim s s') by ((split; [|split]); assumption). cases.
Qed.
Lemma number_rel : forall s s', sim s s' -> rel (number_token H s) (number_token H s').
Proof. intros s s' S. unfold number_token. rewrite (proj1 S). destruct (lex_number [] true (text s)) as [[[v b] t]|]; cbv zeta; cases. Qed.
Lemma string_rel : forall s s', sim s s' -> rel (string_token H s) (string_token H s').
Proof. intros s s' S. unfold string_token. rewrite (proj1 S). cases. Qed.

Lemma eval_rel : forall f, (forall p v s s', sim s s' -> rel (eval H f p v s) (eval H f p v s')) /\ (forall p v s s', sim s s' -> rel (binops H f p v s) (binops H f p v s')).
Proof.
  induction f as [|f [IHe IHb]]; [split; intros; apply rel_fuel|].
  assert (TL : forall p v s s', sim s s' -> rel (tail H f p v s) (tail H f p v s')).
  { intros p v s s' S. unfold tail. apply rel_bind; [now apply IHb|]. intros s1 s1' d S1. destruct (p <? MAX - 1)%Z; [base|now apply IHe]. }
  assert (AF : forall p v s s', sim s s' -> rel (after H f p v s) (after H f p v s')).
  { intros p v s s' S. unfold after. apply rel_bind; [now apply skip_rel|]. intros. now apply TL. }
  split; intros p v s s' S.
  - rewrite !eval_S. rewrite (proj1 S). destruct (more (text s)); [|base]. apply rel_bind; [now apply skip_rel|]. intros s1 s1' _ S1.
    apply rel_bind; [now apply front_rel|]. intros s2 s2' c S2. unfold token.
    repeat match goal with
    | |- rel (if ?b then _ else _) (if ?b then _ else _) => destruct b
    | |- rel (bindR (eval H _ _ _ _) _) _ => apply rel_bind; [now apply IHe|intros]
    | |- rel (bindR (pop H _) _) _ => apply rel_bind; [now apply pop_rel|intros]
    | |- rel (bindR (skip H _) _) _ => apply rel_bind; [now apply skip_rel|intros]
    | |- rel (bindR (un_op H _ _ _) _) _ => apply rel_bind; [now apply un_op_rel|intros]
    | |- rel (bindR (number_token H _) _) _ => apply rel_bind; [now apply number_rel|intros]
    | |- rel (bindR (string_token H _) _) _ => apply rel_bind; [now apply string_rel|intros]
    | |- rel (after _ _ _ _ _) _ => now apply AF
    end.
    + match goal with S : sim ?a ?b |- context [text ?b] => rewrite (proj1 S) end. match goal with |- context [ds ?d] => destruct (ds d) end; [|base].
      apply IHe. now apply sim_text.
    + base.
    + rewrite (proj1 S2). destruct (read_name [] (text s2)) as [[n t]|]; [|base]. cbv zeta. destruct (find_unop n) as [u|].
      * apply rel_bind; [apply IHe; now apply sim_text|]. intros s3 s3' d S3. apply rel_bind; [now apply un_op_rel|]. intros. now apply AF.
      * apply rel_bind; [apply skip_rel; now apply sim_text|]. intros s3 s3' _ S3. apply rel_bind; [now apply front_rel|]. intros s4 s4' c4 S4.
        rewrite (proj1 S4). destruct (if c4 =? "=" then _ else _) as [[]|]; [| |base].
        -- apply rel_bind; [now apply pop_rel|]. intros s5 s5' _ S5. apply rel_bind; [now apply IHe|]. intros s6 s6' d S6.
           apply rel_bind; [now apply assign_dyn_rel|]. intros. now apply AF.
        -- apply rel_bind; [now apply eval_var_rel|]. intros. now apply AF.
    + destruct (find_unop [c]) as [u|]; [|base]. apply rel_bind; [now apply pop_rel|]. intros s3 s3' _ S3. apply rel_bind; [now apply IHe|]. intros s4 s4' d S4.
      apply rel_bind; [now apply un_op_rel|]. intros. now apply AF.
  - rewrite !binops_S. rewrite (proj1 S). destruct (select_op (text s)) as [b|]; [|base]. destruct (op_prec b <? p)%Z; [|base].
    apply rel_bind; [apply IHe; now apply sim_text|]. intros s1 s1' d S1. apply rel_bind; [now apply bin_op_rel|]. intros s2 s2' d2 S2.
    apply rel_bind; [now apply skip_rel|]. intros. now apply IHb.
Qed.

Lemma exec_rel : forall f c t x x' w, defused x x' -> rel (exec H f c (St t x w)) (exec H f c (St t x' w)).
Proof.
  intros f c t x x' w E. rewrite !exec_eq. cbn [vars world].
  assert (S : sim (St (c ++ [NUL]) x w) (St (c ++ [NUL]) x' w)) by (split; [|split]; [reflexivity|reflexivity|exact E]).
  pose proof (proj1 (eval_rel f) (MAX - 1)%Z (dyn0 H) _ _ S) as R.
  destruct (eval H f (MAX - 1)%Z (dyn0 H) (St (c ++ [NUL]) x w)) as [s1 a|s1 m|s1 m|k|];
  destruct (eval H f (MAX - 1)%Z (dyn0 H) (St (c ++ [NUL]) x' w)) as [s1' a'|s1' m'|s1' m'|k'|];
  destruct R as [(s2 & R)|R]; try discriminate R; try contradiction R; cbn in R.
  all: try (injection R as -> ->; left; eexists; reflexivity).
  - destruct R as [S1 _]. cbn. apply rel_ok. now apply sim_text.
  - destruct R as [S1 ->]. unfold finish. apply rel_bind; [now apply lookup_str_rel|]. intros s2 s2' [[|e ex]|] S2; [base| |base].
    cbv zeta. rewrite (proj1 S2). apply rel_bind.
    + apply assign_opt_rel; [|exact S2]. intros z y y' Ey. exact (defused_assign (d_of_int H) _ (VStr z) y y' Ey).
    + intros s3 s3' _ S3. apply rel_bind; [now apply skip_rel|]. intros s4 s4' _ S4. rewrite (proj1 S4). apply rel_bind.
      * apply eval_rel. now apply sim_text.
      * intros. apply rel_ok. now apply sim_text.
  - subst. cbn. apply rel_exc.
  - subst. cbn. apply rel_ub.
  - cbn. apply rel_fuel.
Qed.

Lemma exec_exit : forall f c t x x' w, defused x x' -> exec H f c (St t x w) = RUb UbText -> exists s, exec H f c (St t x' w) = RExc s XOther.
Proof.
  intros f c t x x' w E Q. pose proof (exec_rel f c t x x' w E) as R. rewrite Q in R. destruct R as [R|R]; [exact R|].
  destruct (exec H f c (St t x' w)) eqn:Z; try contradiction. subst. exfalso. exact (exec_safe H f c (St t x' w) (defused_no_exit x x' E) Z).
Qed.
End Exit.
