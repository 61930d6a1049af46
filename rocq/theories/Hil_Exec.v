(** Proofs about whole programs: execution, macros, sequences of statements, the end of the text. *)
From Coq Require Import List ZArith Bool Ascii String Lia.
From Verif Require Import Outcome Math_Model Namespace_Model Namespace_Spec Namespace_Proofs Hil_Model Hil_Spec Hil_Lex Hil_Eval Hil_Proofs.
Import ListNotations.
Open Scope list_scope.
Local Open Scope char_scope.

Section Exec.
Variable H : host.
Notation res := (res H).
Notation st := (st H).
Notation dyn := (dyn H).
Notation St := (St H).
Notation evals := (evals H).
Notation afters := (afters H).
Notation token := (token H).
Notation after := (after H).
Notation dyn_of := (dyn_of H).
Notation is_err := (is_err H).

Lemma evals_runs : forall p v s r, r <> RFuel -> (evals p v s r <-> runs (fun f => eval H f p v s) r).
Proof.
  intros p v s r N. split.
  - intros (f & E & _). exists f. intros g L. now apply (eval_mono H f g).
  - intros (n & E). exists n. split; [now apply E|exact N].
Qed.

(** ** [exec] in terms of [eval] *)
Definition finish (f : nat) (r : res dyn) : res unit :=
  match r with
  | ROk s _ => ROk (set_text s []) tt
  | RHil s m =>
      bindR (lookup_str H (s_ "except") s) (fun s o =>
      match o with
      | None => RExc s XOther
      | Some except =>
          let message := w_message H m (text s) in
          match except with
          | [] => RExc s XUnhandled
          | _ :: _ =>
              bindR (assign_opt H (assign_str (s_ "exception")) (Some message) s) (fun s _ =>
              bindR (skip H s) (fun s _ =>
              let s := set_text s ((except ++ s_ "; exception = {}; except = {};") ++ to_statement_end (text s)) in
              bindR (eval H f (MAX - 1)%Z (dyn0 H) s) (fun s _ => ROk (set_text s []) tt)))
          end
      end)
  | RExc s x => RExc s x
  | RUb k => RUb k
  | RFuel => RFuel
  end.
Lemma exec_eq : forall f c s, exec H f c s = finish f (eval H f (MAX - 1)%Z (dyn0 H) (St (c ++ [NUL]) (vars s) (world s))).
Proof. reflexivity. Qed.
Lemma finish_mono : forall f g q, (f <= g)%nat -> le_res H (finish f q) (finish g q).
Proof.
  intros f g q L. destruct q as [s a|s m|s m|k|]; try (apply le_refl). unfold finish.
  apply le_bind; [apply le_refl|]. intros s1 [ex|]; [|apply le_refl]. cbv zeta. destruct ex; [apply le_refl|].
  apply le_bind; [apply le_refl|]. intros s2 _. apply le_bind; [apply le_refl|]. intros s3 _. apply le_bind; [|intros; apply le_refl].
  match goal with |- le_res _ ?a _ => destruct a eqn:E; try (left; reflexivity); right; symmetry; (apply (eval_mono H f g); [exact L|exact E|discriminate]) end.
Qed.

Definition start (c : str) (s : st) : st := St (c ++ [NUL]) (vars s) (world s).
Lemma exec_same : forall c1 s1 c2 s2, (forall q, evals (MAX - 1)%Z (dyn0 H) (start c1 s1) q <-> evals (MAX - 1)%Z (dyn0 H) (start c2 s2) q) ->
  forall r, runs (fun f => exec H f c1 s1) r -> runs (fun f => exec H f c2 s2) r.
Proof.
  intros c1 s1 c2 s2 E r (n & K). unfold start in *.
  destruct (eval H n (MAX - 1)%Z (dyn0 H) (St (c1 ++ [NUL]) (vars s1) (world s1))) as [s a|s m|s m|k|] eqn:Q.
  5: { exists n. intros f L. rewrite exec_eq. assert (R : r = RFuel) by (rewrite <- (K n (Nat.le_refl n)), exec_eq, Q; reflexivity). subst r.
       destruct (eval H f (MAX - 1)%Z (dyn0 H) (St (c2 ++ [NUL]) (vars s2) (world s2))) as [s a|s m|s m|k|] eqn:Q2; try reflexivity;
       (assert (EV : evals (MAX - 1)%Z (dyn0 H) (St (c1 ++ [NUL]) (vars s1) (world s1)) (eval H f (MAX - 1)%Z (dyn0 H) (St (c2 ++ [NUL]) (vars s2) (world s2))));
        [apply E; exists f; split; [reflexivity|rewrite Q2; discriminate]|]; rewrite Q2 in EV; destruct EV as (g & EV & _);
        pose proof (K (f + g)%nat ltac:(lia)) as KK; rewrite exec_eq in KK; rewrite (eval_mono H g (f + g) _ _ _ _ ltac:(lia) EV ltac:(discriminate)) in KK;
        match type of KK with finish _ ?q = _ => destruct (finish_mono f (f + g) q ltac:(lia)) as [Z|Z]; congruence end). }
  all: match type of Q with _ = ?q =>
    assert (EV : evals (MAX - 1)%Z (dyn0 H) (St (c2 ++ [NUL]) (vars s2) (world s2)) q) by (apply E; exists n; split; [exact Q|discriminate]);
    destruct EV as (g & EV & _); exists (n + g)%nat; intros f L; rewrite exec_eq; rewrite (eval_mono H g f _ _ _ _ ltac:(lia) EV ltac:(discriminate));
    rewrite <- (K f ltac:(lia)), exec_eq; rewrite (eval_mono H n f _ _ _ _ ltac:(lia) Q ltac:(discriminate)); reflexivity end.
Qed.

(** one direction, for programs that terminate *)
Lemma exec_from : forall c1 s1 c2 s2, (forall q, evals (MAX - 1)%Z (dyn0 H) (start c1 s1) q -> evals (MAX - 1)%Z (dyn0 H) (start c2 s2) q) ->
  forall r, r <> RFuel -> runs (fun f => exec H f c1 s1) r -> runs (fun f => exec H f c2 s2) r.
Proof.
  intros c1 s1 c2 s2 E r N (n & K). unfold start in *.
  destruct (eval H n (MAX - 1)%Z (dyn0 H) (St (c1 ++ [NUL]) (vars s1) (world s1))) as [s a|s m|s m|k|] eqn:Q.
  5: { exfalso. apply N. rewrite <- (K n (Nat.le_refl n)), exec_eq, Q. reflexivity. }
  all: match type of Q with _ = ?q =>
    assert (EV : evals (MAX - 1)%Z (dyn0 H) (St (c2 ++ [NUL]) (vars s2) (world s2)) q) by (apply E; exists n; split; [exact Q|discriminate]);
    destruct EV as (g & EV & _); exists (n + g)%nat; intros f L; rewrite exec_eq; rewrite (eval_mono H g f _ _ _ _ ltac:(lia) EV ltac:(discriminate));
    rewrite <- (K f ltac:(lia)), exec_eq; rewrite (eval_mono H n f _ _ _ _ ltac:(lia) Q ltac:(discriminate)); reflexivity end.
Qed.

Lemma exec_runs : forall n c s, exec H n c s <> RFuel -> runs (fun f => exec H f c s) (exec H n c s).
Proof.
  intros n c s N. exists n. intros f L. rewrite !exec_eq in *. destruct (eval H n (MAX - 1)%Z (dyn0 H) (St (c ++ [NUL]) (vars s) (world s))) as [s1 a|s1 m|s1 m|k|] eqn:Q.
  5: { exfalso. now apply N. }
  all: rewrite (eval_mono H n f _ _ _ _ L Q ltac:(discriminate)); match goal with |- finish _ ?q = _ => destruct (finish_mono n f q L) as [Z|Z]; congruence end.
Qed.
Lemma runs_unique : forall A (k : nat -> A) r r', runs k r -> runs k r' -> r = r'.
Proof. intros A k r r' (n & E) (n' & E'). rewrite <- (E (n + n')%nat) by lia. apply E'. lia. Qed.

(** ** A written program *)
Lemma follow_nul : forall t l, follow t l [NUL].
Proof. intros t l. apply (follow_close t l [] NUL []); try discriminate; try reflexivity. constructor. Qed.
Lemma afters_nul : forall v x w, afters (MAX - 1)%Z v (St [NUL] x w) (ROk (St [NUL] x w) v).
Proof. intros v x w. exists 1%nat. split; [reflexivity|discriminate]. Qed.

Lemma eval_program : forall l e t x w, writes l e t -> wf H x ->
  match sem H e x w with
  | SOk x' w' d => evals (MAX - 1)%Z (dyn0 H) (St (t ++ [NUL]) x w) (ROk (St [NUL] x' w') (dyn_of d))
  | SHil x' w' => exists t' m, evals (MAX - 1)%Z (dyn0 H) (St (t ++ [NUL]) x w) (RHil (St t' x' w') m)
  | SExc x' w' => exists t' m, evals (MAX - 1)%Z (dyn0 H) (St (t ++ [NUL]) x w) (RExc (St t' x' w') m)
  | SUndef => exists k, evals (MAX - 1)%Z (dyn0 H) (St (t ++ [NUL]) x w) (RUb k)
  | SSilent => True
  end.
Proof.
  intros l e t x w W U.
  assert (O : ok l (MAX - 1)) by (pose proof (writes_level _ _ _ W); unfold ok, MAX; lia).
  pose proof (eval_writes H l e t W (MAX - 1)%Z (dyn0 H) x w [NUL] U O (follow_nul t l)) as G.
  destruct (sem H e x w) as [x' w' d|x' w'|x' w'| |]; cbn [good] in G; try exact G. apply G. apply afters_nul.
Qed.

Lemma exec_of_eval : forall c s q r, evals (MAX - 1)%Z (dyn0 H) (start c s) q -> (forall f, finish f q = r) -> runs (fun f => exec H f c s) r.
Proof.
  intros c s q r (n & E & N) F. exists n. intros f L. rewrite exec_eq. unfold start in E. rewrite (eval_mono H n f _ _ _ _ L E N). apply F.
Qed.

Lemma exec_hil_unhandled : forall f t x w m, find_str (s_ "except") x = Some (Value []) -> finish f (RHil (St t x w) m) = RExc (St t x w) XUnhandled.
Proof. intros f t x w m E. unfold finish, lookup_str. cbn [vars]. rewrite E. reflexivity. Qed.

(** ** Macros *)
Lemma dollar_iff : forall p v y x w r0 x1 w1 m r, y <> [] ->
  evals 0%Z (dyn0 H) (St y x w) (ROk (St r0 x1 w1) (dyn_s H m)) ->
  (evals p v (St ("$" :: y) x w) r <-> evals p v (St (m ++ r0) x1 w1) r).
Proof.
  intros p v y x w r0 x1 w1 m r Y E. assert (T : forall f, token f p v (St ("$" :: y) x w) "$" =
     bindR (eval H f 0 (dyn0 H) (St y x w)) (fun s d => match ds d with Some x => eval H f p v (set_text s (x ++ text s)) | None => RHil s MSubst end)) by reflexivity.
  split.
  - intros (f & Q & N). destruct f as [|f]; [cbn in Q; congruence|]. destruct y as [|c y]; [congruence|].
    assert (Q' : eval H (S f) p v (St ("$" :: c :: y) x w) = token f p v (St ("$" :: c :: y) x w) "$") by (rewrite eval_S; reflexivity).
    rewrite Q', T in Q.
    destruct E as (g & E & _). destruct (eval H f 0 (dyn0 H) (St (c :: y) x w)) as [s a|s q|s q|k|] eqn:Z.
    5: { cbn in Q. congruence. }
    all: rewrite <- (eval_mono H f (f + g) _ _ _ _ ltac:(lia) Z ltac:(discriminate)) in Q; rewrite (eval_mono H g (f + g) _ _ _ _ ltac:(lia) E ltac:(discriminate)) in Q;
         cbn [bindR ds dyn_s] in Q; unfold set_text in Q; cbn [text vars world] in Q; exists f; now split.
  - intros (f & Q & N). destruct E as (g & E & _). apply evals_token; [discriminate|exact Y|]. exists (f + g)%nat. split; [|exact N]. rewrite T.
    rewrite (eval_mono H g (f + g) _ _ _ _ ltac:(lia) E ltac:(discriminate)). cbn [bindR ds dyn_s]. unfold set_text. cbn [text vars world].
    apply (eval_mono H f); [lia|exact Q|exact N].
Qed.

(** evaluating the operand of [$] *)
Lemma operand : forall e t b x w rest c0 r0 x1 w1 d, writes (-1) e t -> blanks b -> wf H x -> follow t (-1) rest -> skip_spaces rest = Some (c0 :: r0) ->
  sem H e x w = SOk x1 w1 d -> evals 0%Z (dyn0 H) (St (b ++ t ++ rest) x w) (ROk (St (c0 :: r0) x1 w1) (dyn_of d)).
Proof.
  intros e t b x w rest c0 r0 x1 w1 d W B U F K E.
  pose proof (eval_writes H (-1) e t W 0%Z (dyn0 H) x w rest U ltac:(unfold ok; lia) F) as G. rewrite E in G. cbn [good] in G.
  apply evals_blanks; [exact B|apply (writes_more (-1) e); [exact W|now apply (follow_nonnil t (-1))]|]. apply G. apply afters_stop; [exact K|unfold MAX; lia|].
  intros o _. destruct o; cbn; lia.
Qed.

Lemma split_blanks : forall y : str, exists b z, blanks b /\ y = b ++ z /\ (forall z', z <> " " :: z').
Proof.
  induction y as [|c y IH]; [exists [], []; split; [constructor|]; split; [reflexivity|discriminate]|].
  destruct (Ascii.eqb_spec c " ") as [->|N].
  - destruct IH as (b & z & B & -> & Z). exists (" " :: b), z. split; [constructor; auto|]. split; [reflexivity|exact Z].
  - exists [], (c :: y). split; [constructor|]. split; [reflexivity|]. intros z' E. congruence.
Qed.
Lemma separated_follow : forall t b z, blanks b -> (forall z', z <> " " :: z') -> separated t (b ++ z) ->
  follow t (-1) ((b ++ z) ++ [NUL]) /\ skip_spaces ((b ++ z) ++ [NUL]) = Some (z ++ [NUL]).
Proof.
  intros t b z B Z S. assert (K : skip_spaces ((b ++ z) ++ [NUL]) = Some (z ++ [NUL])).
  { rewrite <- app_assoc, skip_blanks by exact B. destruct z as [|c z]; [reflexivity|]. cbn [app]. apply skip_nonblank. intros ->. now apply (Z z). }
  split; [|exact K]. destruct z as [|c z].
  - exists NUL, []. split; [exact K|]. split; [intros o _; destruct o; cbn; lia|]. split; [discriminate|].
    intros O. rewrite app_nil_r in *. destruct (S O) as [S1 _]. destruct b as [|c b]; [exists NUL, []; repeat split; discriminate|].
    cbn [app]. exists c. eexists. split; [reflexivity|]. now apply (S1 c b).
  - exists c, (z ++ [NUL]). split; [exact K|]. split; [intros o _; destruct o; cbn; lia|]. split.
    + intros [O|O] ->; [|lia]. destruct (S O) as [_ S2]. destruct (S2 b z B eq_refl) as (y'' & ->). exists (y'' ++ [NUL]). reflexivity.
    + intros O. destruct (S O) as [S1 _]. destruct b as [|c' b]; cbn [app] in *.
      * exists c. eexists. split; [reflexivity|]. now apply (S1 c z).
      * exists c'. eexists. split; [reflexivity|]. now apply (S1 c' (b ++ c :: z)).
Qed.

Lemma macro_exec : forall e t b b' z x w x1 w1 m t0 t0', writes (-1) e t -> blanks b -> blanks b' -> (forall z', z <> " " :: z') -> separated t (b' ++ z) -> wf H x ->
  sem H e x w = SOk x1 w1 (VStr m) ->
  forall r, runs (fun f => exec H f ("$" :: b ++ t ++ b' ++ z) (St t0 x w)) r <-> runs (fun f => exec H f (m ++ z) (St t0' x1 w1)) r.
Proof.
  intros e t b b' z x w x1 w1 m t0 t0' W B B' Z S U E.
  destruct (separated_follow t b' z B' Z S) as [F K].
  assert (Q : exists c0 r0, z ++ [NUL] = c0 :: r0) by (destruct z; cbn; eauto). destruct Q as (c0 & r0 & Q). rewrite Q in K.
  pose proof (operand e t b x w _ c0 r0 x1 w1 (VStr m) W B U F K E) as OP.
  assert (EQ : forall q, evals (MAX - 1)%Z (dyn0 H) (start ("$" :: b ++ t ++ b' ++ z) (St t0 x w)) q <-> evals (MAX - 1)%Z (dyn0 H) (start (m ++ z) (St t0' x1 w1)) q).
  { intros q. unfold start. cbn [vars world]. rewrite <- app_comm_cons, <- (app_assoc m), Q. rewrite <- (app_assoc b), <- (app_assoc t).
    apply dollar_iff; [|exact OP]. apply app_nonnil. apply app_nonnil. apply app_nonnil. discriminate. }
  intros r. split; apply exec_same; [exact EQ|]. intros q. symmetry. apply EQ.
Qed.

(** ** Sequences of statements *)
Lemma eval_token : forall f p v c t x w, c <> " " -> t <> [] -> eval H (S f) p v (St (c :: t) x w) = token f p v (St (c :: t) x w) c.
Proof.
  intros f p v c t x w N T. destruct t as [|d t]; [congruence|]. rewrite eval_S. cbn [text]. rewrite more_cons. unfold skip. cbn [text].
  rewrite skip_nonblank by exact N. reflexivity.
Qed.
Lemma token_indep : forall f p v v' c t x w, c <> "$" -> separator c = false -> (p = MAX -> c <> ")") ->
  token f p v (St (c :: t) x w) c = token f p v' (St (c :: t) x w) c.
Proof.
  intros f p v v' c t x w N S P. unfold Hil_Eval.token. apply Ascii.eqb_neq in N. rewrite N. unfold separator in S. rewrite S.
  destruct (c =? "("); [reflexivity|]. destruct (Z.eqb_spec p MAX) as [E|E]; cbn [andb].
  - specialize (P E). apply Ascii.eqb_neq in P. rewrite P. reflexivity.
  - reflexivity.
Qed.
Lemma evals_indep : forall p v v' c t x w r, c <> "$" -> c <> " " -> separator c = false -> (p = MAX -> c <> ")") -> t <> [] ->
  evals p v (St (c :: t) x w) r -> evals p v' (St (c :: t) x w) r.
Proof.
  intros p v v' c t x w r N B S P T (f & E & F). exists f. split; [|exact F]. destruct f as [|f]; [exact E|]. rewrite eval_token in * by assumption. now rewrite (token_indep f p v' v).
Qed.

Lemma sequence_exec : forall l e t g1 s g2 c y x w t0 t0', writes l e t -> wf H x -> gap g1 -> separator s = true -> gap g2 ->
  c <> "$" -> c <> " " -> separator c = false -> select_op (c :: y ++ [NUL]) = None ->
  match sem H e x w with
  | SOk x1 w1 _ => forall r, r <> RFuel -> runs (fun f => exec H f (c :: y) (St t0' x1 w1)) r -> runs (fun f => exec H f (t ++ g1 ++ s :: g2 ++ c :: y) (St t0 x w)) r
  | SHil x1 w1 => find_str (s_ "except") x1 = Some (Value []) -> exists t', runs (fun f => exec H f (t ++ g1 ++ s :: g2 ++ c :: y) (St t0 x w)) (RExc (St t' x1 w1) XUnhandled)
  | SExc x1 w1 => exists t' m, runs (fun f => exec H f (t ++ g1 ++ s :: g2 ++ c :: y) (St t0 x w)) (RExc (St t' x1 w1) m)
  | SUndef => exists k, runs (fun f => exec H f (t ++ g1 ++ s :: g2 ++ c :: y) (St t0 x w)) (RUb k)
  | SSilent => True
  end.
Proof.
  intros l e t g1 s g2 c y x w t0 t0' W U G1 S G2 N B Sp OpN.
  assert (O : ok l (MAX - 1)) by (pose proof (writes_level _ _ _ W); unfold ok, MAX; lia).
  assert (Tx : (t ++ g1 ++ s :: g2 ++ c :: y) ++ [NUL] = t ++ g1 ++ s :: g2 ++ c :: y ++ [NUL]).
  { rewrite <- app_assoc. f_equal. rewrite <- app_assoc. f_equal. rewrite <- app_comm_cons. f_equal. now rewrite <- app_assoc. }
  pose proof (eval_writes H l e t W (MAX - 1)%Z (dyn0 H) x w (g1 ++ s :: g2 ++ c :: y ++ [NUL]) U O (follow_gap t g1 l s _ G1 S)) as G.
  destruct (sem H e x w) as [x1 w1 d|x1 w1|x1 w1| |]; cbn [good] in G.
  - apply exec_from. intros q Q. unfold start in *. cbn [vars world] in *. rewrite Tx. apply G.
    replace (g1 ++ s :: g2 ++ c :: y ++ [NUL]) with ((g1 ++ s :: g2) ++ c :: y ++ [NUL]) by (now rewrite <- app_assoc).
    apply gap_afters; [lia| |discriminate|].
    + apply Forall_app. split; [exact G1|constructor; [right; exact S|exact G2]].
    + assert (NN : y ++ [NUL] <> []) by (apply app_nonnil; discriminate).
      apply afters_next; [lia| |].
      * exists c, (y ++ [NUL]). split; [now apply skip_nonblank|]. split; [exact NN|exact OpN].
      * apply (evals_indep _ (dyn0 H)); try assumption. unfold MAX. lia.
  - intros X. destruct G as (t' & m & G). exists t'. eapply exec_of_eval; [unfold start; cbn [vars world]; rewrite Tx; exact G|]. intros f. now apply exec_hil_unhandled.
  - destruct G as (t' & m & G). exists t', m. eapply exec_of_eval; [unfold start; cbn [vars world]; rewrite Tx; exact G|]. reflexivity.
  - destruct G as (k & G). exists k. eapply exec_of_eval; [unfold start; cbn [vars world]; rewrite Tx; exact G|]. reflexivity.
  - exact I.
Qed.

(** ** The end of the text *)
Definition ends (t : str) : Prop := exists t', t = t' ++ [NUL].
Lemma ends_cons : forall c t, ends (c :: t) -> c <> NUL -> ends t.
Proof. intros c t ([|d t'] & E) N; cbn in E; injection E as -> E; [congruence|]. exists t'. exact E. Qed.
Lemma ends_app : forall a t, ends t -> ends (a ++ t).
Proof. intros a t (t' & ->). exists (a ++ t'). now rewrite app_assoc. Qed.
Lemma ends_suffix : forall a t, ends (a ++ t) -> t <> [] -> ends t.
Proof.
  intros a t (t' & E) N. destruct (exists_last N) as (u & z & ->). rewrite app_assoc in E. apply app_inj_tail in E as [_ ->]. now exists u.
Qed.
Lemma ends_nonnil : forall t, ends t -> t <> [].
Proof. intros t (t' & ->) E. apply app_eq_nil in E as [_ E]. discriminate. Qed.

Inductive no_exit : space (D H) -> Prop :=
| NoExit x : (forall n, strs x n <> Some (Heisenberg CbExit)) -> (forall y, In y (supers x) -> no_exit y) -> no_exit x.

Definition inv (s : st) : Prop := ends (text s) /\ no_exit (vars s).
Definition safe {A} (r : res A) : Prop :=
  match r with ROk s _ => inv s | RHil s _ => inv s | RUb k => k <> UbText | _ => True end.
Lemma safe_bind : forall A B (r : res A) (k : st -> A -> res B), safe r -> (forall s a, r = ROk s a -> inv s -> safe (k s a)) -> safe (bindR r k).
Proof. intros A B [s a|s m|s m|k0|] k S K; cbn in *; auto. Qed.

Lemma skip_ends : forall t, ends t -> exists r, skip_spaces t = Some r /\ ends r.
Proof.
  induction t as [|c t IH]; intros E; [now apply ends_nonnil in E|]. cbn. destruct (Ascii.eqb_spec c " ") as [->|N].
  - apply IH. apply (ends_cons " "); [exact E|discriminate].
  - eauto.
Qed.
Lemma skip_safe : forall s, inv s -> safe (skip H s).
Proof. intros s [E N]. unfold skip. destruct (skip_ends _ E) as (r & -> & R). split; assumption. Qed.
Lemma read_name_ends : forall t acc, ends t -> exists n r, read_name acc t = Some (n, r) /\ ends r.
Proof.
  induction t as [|c t IH]; intros acc E; [now apply ends_nonnil in E|]. cbn. destruct (is_name_char c) eqn:N; [|eauto].
  apply IH. apply (ends_cons c); [exact E|]. intros ->. discriminate.
Qed.
Lemma lex_number_ends : forall t acc b, ends t -> exists v b' r, lex_number acc b t = Some (v, b', r) /\ ends r.
Proof.
  induction t as [|c t IH]; intros acc b E; [now apply ends_nonnil in E|]. cbn [lex_number].
  destruct (is_digit c || (c =? ".") || is_e c || ((c =? "-") || (c =? "+")) && is_e (last acc NUL)) eqn:N; [|eauto].
  apply IH. apply (ends_cons c); [exact E|]. intros ->. discriminate N.
Qed.
Lemma lex_string_ends : forall t d b v, ends t -> match lex_string d b v t with LexOk _ r => ends r | LexEnd r => ends r end.
Proof.
  induction t as [|c t IH]; intros d b v E; [now apply ends_nonnil in E|]. destruct t as [|c2 t]; [exact E|].
  assert (E2 : ends (c2 :: t)) by (apply (ends_suffix [c]); [exact E|discriminate]).
  rewrite lex_string_step by discriminate. cbv zeta. destruct (_ =? 0)%nat; [exact E2|]. apply IH. exact E2.
Qed.

Lemma find_str_no_exit : forall n x, no_exit x -> find_str n x <> Some (Heisenberg CbExit).
Proof.
  intros n. fix IH 1. intros [i d s l] NE. inversion NE as [x A B]; subst. cbn in *. destruct (s n) as [v|] eqn:S; [rewrite <- S; apply A|].
  destruct (exists_ _ n); [discriminate|].
  induction l as [|y l IHl]; [discriminate|]. destruct (exists_recursive y n).
  - apply IH. apply B. now left.
  - apply IHl; [|auto].
    + constructor; [exact A|]. intros z I. apply B. now right.
    + intros z I. apply B. now right.
Qed.
Lemma get_str_safe : forall v s, inv s -> v <> Heisenberg CbExit -> safe (get_str H v s).
Proof.
  intros [z|[| |k]] s I N; cbn; try exact I; try exact Logic.I; try congruence. destruct (w_str H k (world s)) as [[z|] w]; [exact I|exact Logic.I].
Qed.
Lemma lookup_str_safe : forall n s, inv s -> safe (lookup_str H n s).
Proof.
  intros n s I. unfold lookup_str. destruct (find_str n (vars s)) as [v|] eqn:E; [|exact I]. apply safe_bind; [|intros; assumption].
  apply get_str_safe; [exact I|]. intros ->. now apply (find_str_no_exit n (vars s) (proj2 I)).
Qed.
Lemma get_int_safe : forall v s, inv s -> safe (get_int H v s).
Proof. intros [z|k] s I; cbn; [exact I|]. destruct (w_int H k (world s)) as [[z|] w]; [exact I|exact Logic.I]. Qed.
Lemma get_dbl_safe : forall v s, inv s -> safe (get_dbl H v s).
Proof. intros [z|k] s I; cbn; [exact I|]. destruct (w_dbl H k (world s)) as [[z|] w]; [exact I|exact Logic.I]. Qed.
Lemma eval_var_safe : forall n s, inv s -> safe (eval_var H n s).
Proof.
  intros n s I. unfold eval_var. destruct (exists_recursive (vars s) n); [|exact I].
  apply safe_bind.
  { unfold lookup_int. destruct (find_int n (vars s)); [|exact I]. apply safe_bind; [now apply get_int_safe|intros; assumption]. }
  intros s1 i _ I1. apply safe_bind.
  { destruct i; [exact I1|]. unfold lookup_dbl. destruct (find_dbl n (vars s1)) as [[v|v]|]; [| |exact I1].
    - apply safe_bind; [now apply get_dbl_safe|intros; assumption].
    - apply safe_bind; [now apply get_int_safe|intros; assumption]. }
  intros s2 d _ I2. apply safe_bind; [now apply lookup_str_safe|]. intros; assumption.
Qed.
Lemma no_exit_put : forall n v x x', no_exit x -> v <> Heisenberg CbExit ->
  strs x' = put (strs x) n v \/ strs x' = strs x -> supers x' = supers x -> no_exit x'.
Proof.
  intros n v x x' NE V S P. inversion NE as [y A B]; subst. constructor; [|rewrite P; exact B]. intros k E. destruct S as [S|S]; rewrite S in E.
  - unfold put in E. destruct (str_eqb k n); [congruence|now apply (A k)].
  - now apply (A k).
Qed.
Lemma assign_no_exit : forall n v x x', no_exit x -> assign_t (d_of_int H) n v x = Some x' -> no_exit x'.
Proof.
  intros n v x x' NE E.
  destruct v as [z|z|z]; cbn in E; unfold assign_int, assign_dbl, assign_str, set_int, set_dbl, set_str, create_int, create_dbl, create_str, set_var in E.
  - destruct (ints x n) as [[q|q]|]; try discriminate; [injection E as <-; now apply (no_exit_put n (Value []) x); [| |right|]|].
    destruct (dbls x n) as [[q|q]|]; try discriminate; [injection E as <-; now apply (no_exit_put n (Value []) x); [| |right|]|].
    destruct (exists_ x n); [discriminate|]. injection E as <-. now apply (no_exit_put n (Value []) x); [| |right|].
  - destruct (dbls x n) as [[q|q]|]; try discriminate; [injection E as <-; now apply (no_exit_put n (Value []) x); [| |right|]|].
    destruct (exists_ x n); [discriminate|]. injection E as <-. now apply (no_exit_put n (Value []) x); [| |right|].
  - destruct (strs x n) as [[q|q]|]; try discriminate; [injection E as <-; now apply (no_exit_put n (Value z) x); [| |left|]|].
    destruct (exists_ x n); [discriminate|]. injection E as <-. now apply (no_exit_put n (Value z) x); [| |left|].
Qed.
Lemma assign_opt_safe : forall A (f : A -> space (D H) -> option (space (D H))) o s,
  (forall a x x', no_exit x -> f a x = Some x' -> no_exit x') -> inv s -> safe (assign_opt H f o s).
Proof.
  intros A f [a|] s K I; cbn; [|exact I]. destruct (f a (vars s)) as [x'|] eqn:E; [|exact Logic.I]. split; [exact (proj1 I)|]. exact (K a _ _ (proj2 I) E).
Qed.
Lemma assign_dyn_safe : forall n d s, inv s -> safe (assign_dyn H n d s).
Proof.
  intros n d s I. unfold assign_dyn. apply safe_bind; [apply assign_opt_safe; [|exact I]|intros s1 _ _ I1; apply safe_bind; [apply assign_opt_safe; [|exact I1]|intros s2 _ _ I2; apply assign_opt_safe; [|exact I2]]].
  - intros a x x' NE E. exact (assign_no_exit n (VInt a) x x' NE E).
  - intros a x x' NE E. exact (assign_no_exit n (VDbl a) x x' NE E).
  - intros a x x' NE E. exact (assign_no_exit n (VStr a) x x' NE E).
Qed.

Ltac safe_cases := repeat match goal with
  | |- safe (match ?y with _ => _ end) => destruct y
  | |- safe (if ?y then _ else _) => destruct y
  | |- safe (ROk _ _) => cbn; assumption
  | |- safe (RHil _ _) => cbn; assumption
  | |- safe (RExc _ _) => exact Logic.I
  | |- safe (RUb _) => cbn; discriminate
  | |- safe RFuel => exact Logic.I
  end.
Lemma arithmetic_safe : forall a o0 o1 s, inv s -> safe (arithmetic_op H a o0 o1 s).
Proof. intros a o0 o1 s I. unfold arithmetic_op, lift_int. safe_cases. Qed.
Lemma comparison_safe : forall a o0 o1 s, inv s -> safe (comparison_op H a o0 o1 s).
Proof. intros a o0 o1 s I. unfold comparison_op. safe_cases. Qed.
Lemma general_eq_safe : forall o0 o1 s, inv s -> safe (general_eq H o0 o1 s).
Proof. intros o0 o1 s I. unfold general_eq. safe_cases. now apply comparison_safe. Qed.
Lemma general_add_safe : forall o0 o1 s, inv s -> safe (general_add H o0 o1 s).
Proof.
  intros o0 o1 s I. unfold general_add. destruct (ds o0) as [x|], (ds o1) as [y|]; try (now apply arithmetic_safe);
  (apply safe_bind; [now apply lookup_str_safe|]; intros s1 [fd|] _ I1; [|exact Logic.I]; cbv zeta; apply safe_bind;
   [|intros; cbn; assumption]; unfold format; match goal with |- safe (match ?y with Some _ => _ | None => _ end) => destruct y end; [|exact I1];
   apply safe_bind; [safe_cases|intros; cbn; assumption]).
Qed.
Lemma bin_op_safe : forall b o0 o1 s, inv s -> safe (bin_op H b o0 o1 s).
Proof.
  intros b o0 o1 s I. destruct b; cbn [bin_op]; try (now apply arithmetic_safe); try (now apply comparison_safe).
  - unfold index_op. safe_cases.
  - unfold mod_op. safe_cases.
  - now apply general_add_safe.
  - now apply general_eq_safe.
  - apply safe_bind; [now apply general_eq_safe|]. intros s1 v _ I1. safe_cases.
Qed.
Lemma numeric_safe : forall f v s, inv s -> safe (numeric_unary H f v s).
Proof. intros f v s I. unfold numeric_unary. safe_cases. Qed.
Lemma round_safe : forall v s, inv s -> safe (round_op H v s).
Proof. intros v s I. unfold round_op. apply safe_bind; [now apply numeric_safe|]. intros s1 d _ I1. safe_cases. Qed.
Lemma inv_world : forall s w, inv s -> inv (set_world s w).
Proof. intros s w I. exact I. Qed.
Lemma print_safe : forall v s, inv s -> safe (print_op H v s).
Proof. intros v s I. unfold print_op. apply safe_bind; [now apply general_add_safe|]. intros s1 d _ I1. safe_cases. Qed.
Lemma un_op_safe : forall u v s, inv s -> safe (un_op H u v s).
Proof.
  intros u v s I. destruct u; cbn [un_op]; try (now apply numeric_safe); try (now apply print_safe); safe_cases; try (now apply round_safe);
  apply safe_bind; try (now apply numeric_safe); try (now apply general_add_safe); intros s1 d _ I1; [now apply round_safe|now apply round_safe|now apply print_safe].
Qed.
Lemma number_safe : forall s, inv s -> safe (number_token H s).
Proof.
  intros s [E N]. unfold number_token. destruct (lex_number_ends (text s) [] true E) as (v & b & r & -> & R).
  assert (I : inv (set_text s r)) by (split; assumption). cbv zeta. safe_cases.
Qed.
Lemma string_safe : forall s, inv s -> safe (string_token H s).
Proof.
  intros s [E N]. unfold string_token. pose proof (lex_string_ends (text s) 1 false [] E) as L. destruct (lex_string 1 false [] (text s)); split; assumption.
Qed.

Lemma select_op_length : forall t b, select_op t = Some b -> (List.length (op_name b) < List.length t)%nat.
Proof.
  intros t b. unfold select_op. change (fold_left (op_step t) all_binops None = Some b -> (List.length (op_name b) < List.length t)%nat).
  assert (G : forall l best, (forall b', best = Some b' -> (List.length (op_name b') < List.length t)%nat) ->
     fold_left (op_step t) l best = Some b -> (List.length (op_name b) < List.length t)%nat).
  { induction l as [|o l IH]; intros best Bt E; [now apply Bt|]. cbn [fold_left] in E. apply (IH (op_step t best o)); [|exact E].
    intros b' Q. unfold op_step in Q. destruct (Nat.ltb_spec (List.length (op_name o)) (List.length t)) as [L|L]; cbn [andb] in Q; [|now apply Bt].
    destruct (is_prefix (op_name o) t); [|now apply Bt]. destruct (_ <? _)%nat; [injection Q as <-; exact L|now apply Bt]. }
  apply G. discriminate.
Qed.

Lemma pop_safe : forall s c t, inv s -> text s = c :: t -> c <> NUL -> inv (set_text s t).
Proof. intros s c t [E N] T C. split; [|exact N]. cbn. rewrite T in E. now apply (ends_cons c). Qed.

Lemma eval_safe : forall f, (forall p v s, inv s -> safe (eval H f p v s)) /\ (forall p v s, inv s -> safe (binops H f p v s)).
Proof.
  induction f as [|f [IHe IHb]]; [split; intros; exact Logic.I|].
  assert (TL : forall p v s, inv s -> safe (tail H f p v s)).
  { intros p v s I. unfold tail. apply safe_bind; [now apply IHb|]. intros s1 d _ I1. destruct (p <? MAX - 1)%Z; [exact I1|now apply IHe]. }
  assert (AF : forall p v s, inv s -> safe (after f p v s)).
  { intros p v s I. unfold Hil_Eval.after. apply safe_bind; [now apply skip_safe|]. intros s1 _ _ I1. now apply TL. }
  split; intros p v s I.
  - rewrite eval_S. destruct (more (text s)); [|exact I]. apply safe_bind; [now apply skip_safe|]. intros s1 _ _ I1.
    unfold front. destruct (text s1) as [|c t] eqn:T; [exfalso; apply (ends_nonnil _ (proj1 I1)); exact T|]. cbn [bindR].
    assert (P : c <> NUL -> safe (pop H s1) /\ pop H s1 = ROk (set_text s1 t) c /\ inv (set_text s1 t)).
    { intros C. unfold pop. rewrite T. pose proof (pop_safe s1 c t I1 T C) as Q. split; [exact Q|split; [reflexivity|exact Q]]. }
    unfold Hil_Eval.token. destruct (Ascii.eqb_spec c "$") as [->|C1].
    { destruct P as (_ & -> & I2); [discriminate|]. cbn [bindR]. apply safe_bind; [now apply IHe|]. intros s2 d _ I3.
      destruct (ds d) as [x|]; [|exact I3]. apply IHe. split; [|exact (proj2 I3)]. cbn. apply ends_app. exact (proj1 I3). }
    destruct ((c =? LF) || (c =? ";")) eqn:C2.
    { destruct P as (_ & -> & I2); [intros ->; discriminate C2|]. cbn [bindR]. now apply AF. }
    destruct (Ascii.eqb_spec c "(") as [->|C3].
    { destruct P as (_ & -> & I2); [discriminate|]. cbn [bindR]. apply safe_bind; [now apply IHe|]. intros s2 d _ I3. now apply AF. }
    destruct ((p =? MAX)%Z && (c =? ")")) eqn:C4.
    { destruct P as (_ & -> & I2); [intros ->; rewrite andb_comm in C4; discriminate C4|]. exact I2. }
    destruct (is_digit c || (c =? ".")) eqn:C5.
    { apply safe_bind; [now apply number_safe|]. intros s2 d _ I2. now apply AF. }
    destruct (Ascii.eqb_spec c "{") as [->|C6].
    { destruct P as (_ & -> & I2); [discriminate|]. cbn [bindR]. apply safe_bind; [now apply string_safe|]. intros s2 d _ I3. now apply AF. }
    destruct (is_alpha c || (c =? "_")) eqn:C7.
    { destruct (read_name_ends (text s1) [] (proj1 I1)) as (n & r & -> & R). cbv zeta. assert (I2 : inv (set_text s1 r)) by (split; [exact R|exact (proj2 I1)]).
      destruct (find_unop n) as [u|].
      - apply safe_bind; [now apply IHe|]. intros s2 d _ I3. apply safe_bind; [now apply un_op_safe|]. intros s3 d2 _ I4. now apply AF.
      - apply safe_bind; [now apply skip_safe|]. intros s2 _ _ I3. unfold front. destruct (text s2) as [|c2 t2] eqn:T2; [exfalso; apply (ends_nonnil _ (proj1 I3)); exact T2|]. cbn [bindR].
        destruct (Ascii.eqb_spec c2 "=") as [->|C8].
        + pose proof (pop_safe s2 "=" t2 I3 T2 ltac:(discriminate)) as I4.
          assert (CI : exists b, char_is 1 "=" ("=" :: t2) = Some b).
          { unfold char_is. cbn. pose proof (ends_nonnil t2 (proj1 I4)). destruct t2; [congruence|]. cbn. eauto. }
          destruct CI as (b & CI). rewrite T2, CI. cbn [option_map]. destruct (negb b).
          * unfold pop. rewrite T2. cbn [bindR]. apply safe_bind; [now apply IHe|]. intros s3 d _ I5. apply safe_bind; [now apply assign_dyn_safe|].
            intros s4 _ _ I6. now apply AF.
          * apply safe_bind; [now apply eval_var_safe|]. intros s3 d _ I5. now apply AF.
        + apply safe_bind; [now apply eval_var_safe|]. intros s3 d _ I5. now apply AF. }
    destruct (find_unop [c]) as [u|] eqn:C8; [|exact I1].
    destruct P as (_ & -> & I2); [intros ->; discriminate C8|]. cbn [bindR]. apply safe_bind; [now apply IHe|]. intros s2 d _ I3.
    apply safe_bind; [now apply un_op_safe|]. intros s3 d2 _ I4. now apply AF.
  - rewrite binops_S. destruct (select_op (text s)) as [b|] eqn:S; [|exact I]. destruct (op_prec b <? p)%Z; [|exact I].
    apply select_op_length in S. apply safe_bind.
    { apply IHe. split; [|exact (proj2 I)]. cbn. apply (ends_suffix (firstn (List.length (op_name b)) (text s))); [rewrite firstn_skipn; exact (proj1 I)|].
      intros Z. apply (f_equal (@List.length ascii)) in Z. rewrite skipn_length in Z. cbn in Z. lia. }
    intros s1 d _ I1. apply safe_bind; [now apply bin_op_safe|]. intros s2 d2 _ I2. apply safe_bind; [now apply skip_safe|]. intros s3 _ _ I3. now apply IHb.
Qed.

Lemma to_statement_end_ends : forall t, ends t -> ends (to_statement_end t).
Proof.
  induction t as [|c t IH]; intros E; [exact E|]. destruct t as [|c2 t]; [exact E|]. change (to_statement_end (c :: c2 :: t)) with
    (if (c =? LF) || (c =? ";") then c :: c2 :: t else to_statement_end (c2 :: t)). destruct (_ || _); [exact E|]. apply IH.
  apply (ends_suffix [c]); [exact E|discriminate].
Qed.

Lemma exec_safe : forall f c s, no_exit (vars s) -> exec H f c s <> RUb UbText.
Proof.
  intros f c s NE. rewrite exec_eq.
  assert (I : inv (St (c ++ [NUL]) (vars s) (world s))) by (split; [now exists c|exact NE]).
  pose proof (proj1 (eval_safe f) (MAX - 1)%Z (dyn0 H) _ I) as S.
  destruct (eval H f (MAX - 1)%Z (dyn0 H) _) as [s1 a|s1 m|s1 m|k|]; try discriminate; [|cbn in S |- *; congruence].
  cbn in S. assert (F : safe (finish f (RHil s1 m)) \/ exists s2, finish f (RHil s1 m) = ROk s2 tt).
  { unfold finish. pose proof (lookup_str_safe (s_ "except") s1 S) as L. destruct (lookup_str H (s_ "except") s1) as [s2 o|s2 q|s2 q|q|]; cbn [bindR] in *; try (left; exact L).
    destruct o as [[|a ex]|]; try (left; exact Logic.I). cbv zeta.
    assert (AS : safe (assign_opt H (assign_str (s_ "exception")) (Some (w_message H m (text s2))) s2)).
    { apply assign_opt_safe; [|exact L]. intros z x x' N E. exact (assign_no_exit _ (VStr z) x x' N E). }
    destruct (assign_opt H _ _ s2) as [s3 u|s3 q|s3 q|q|]; cbn [bindR] in *; try (left; exact AS).
    pose proof (skip_safe s3 AS) as SK. destruct (skip H s3) as [s4 u'|s4 q|s4 q|q|]; cbn [bindR] in *; try (left; exact SK).
    match goal with |- context [eval H f ?p ?v ?s] => assert (EV : safe (eval H f p v s)) end.
    { apply eval_safe. split; [|exact (proj2 SK)]. cbn [text set_text]. apply ends_app. apply to_statement_end_ends. exact (proj1 SK). }
    match goal with |- context [eval H f ?p ?v ?s] => destruct (eval H f p v s) as [s5 u5|s5 q|s5 q|q|] end; cbn [bindR] in *; try (left; exact EV).
    right. eauto. }
  destruct F as [F|(s2 & ->)]; [|discriminate]. intros Q. rewrite Q in F. cbn in F. congruence.
Qed.
End Exec.
