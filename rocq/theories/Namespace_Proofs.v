(** Proofs about the HIL namespace. *)
Require Import List ZArith Bool Ascii Lia.
Require Import Verif.Namespace_Model Verif.Namespace_Spec.
Import ListNotations.

Lemma str_eqb_eq : forall a b, str_eqb a b = true <-> a = b.
Proof.
  induction a as [|x a IH]; destruct b as [|y b]; cbn; split; intros H; try discriminate; try reflexivity.
  - apply andb_true_iff in H as [H1 H2]. apply Ascii.eqb_eq in H1. apply IH in H2. now subst.
  - injection H as -> ->. rewrite Ascii.eqb_refl. cbn. now apply IH.
Qed.
Lemma str_eqb_refl : forall a, str_eqb a a = true.
Proof. intros a. now apply str_eqb_eq. Qed.
Lemma str_eqb_neq : forall a b, a <> b -> str_eqb a b = false.
Proof. intros a b H. destruct (str_eqb a b) eqn:E; [apply str_eqb_eq in E; contradiction|reflexivity]. Qed.
Lemma str_dec : forall a b : str, {a = b} + {a <> b}.
Proof. intros a b. destruct (str_eqb a b) eqn:E; [left; now apply str_eqb_eq|right; intros ->; now rewrite str_eqb_refl in E]. Qed.

Lemma put_same : forall A (m : str -> option A) n v, put m n v n = Some v.
Proof. intros. unfold put. now rewrite str_eqb_refl. Qed.
Lemma put_other : forall A (m : str -> option A) n v k, k <> n -> put m n v k = m k.
Proof. intros. unfold put. now rewrite str_eqb_neq. Qed.

Section S.
Context {D : Type}.
Variable conv : Z -> D.
Implicit Types s : space D.

Lemma exists_holds : forall s n, exists_ s n = true <-> exists e, holds s n e.
Proof.
  intros s n. unfold exists_. split.
  - intros H. destruct (ints s n) eqn:A; [exists (EInt v); exact A|].
    destruct (dbls s n) eqn:B; [exists (EDbl v); exact B|].
    destruct (strs s n) eqn:C; [exists (EStr v); exact C|]. discriminate.
  - intros [[v|v|v] H]; cbn in H; rewrite H; cbn; rewrite ?orb_true_r; reflexivity.
Qed.
Lemma not_exists_holds : forall s n, exists_ s n = false <-> forall e, ~ holds s n e.
Proof.
  intros s n. split.
  - intros H e He. assert (exists_ s n = true) by (apply exists_holds; eauto). congruence.
  - intros H. destruct (exists_ s n) eqn:E; [|reflexivity]. apply exists_holds in E as [e He]. now apply H in He.
Qed.
Lemma not_exists_none : forall s n, exists_ s n = false <-> ints s n = None /\ dbls s n = None /\ strs s n = None.
Proof.
  intros s n. unfold exists_. destruct (ints s n), (dbls s n), (strs s n); cbn; split; intros H; try discriminate;
  try (destruct H as (?&?&?); discriminate); auto.
Qed.

Definition unique s : Prop := forall n,
  match ints s n, dbls s n, strs s n with
  | Some _, None, None | None, Some _, None | None, None, Some _ | None, None, None => True
  | _, _, _ => False
  end.
Lemma unique_one_type : forall s, unique s <-> one_type s.
Proof.
  intros s. split.
  - intros U n e e' H H'. specialize (U n). destruct e, e'; cbn in *; rewrite ?H, ?H' in U; try reflexivity; exfalso;
    destruct (ints s n), (dbls s n), (strs s n); try discriminate; contradiction.
  - intros O n. destruct (ints s n) eqn:A, (dbls s n) eqn:B, (strs s n) eqn:C; auto;
    try (specialize (O n (EInt v) (EDbl v0) A B); discriminate);
    try (specialize (O n (EInt v) (EStr v0) A C); discriminate);
    try (specialize (O n (EDbl v) (EStr v0) B C); discriminate).
Qed.

(* one operation: the effect on the entry of a name *)
Definition put_entry n (e : entry D) s : space D :=
  match e with
  | EInt v => Space (put (ints s) n v) (dbls s) (strs s) (supers s)
  | EDbl v => Space (ints s) (put (dbls s) n v) (strs s) (supers s)
  | EStr v => Space (ints s) (dbls s) (put (strs s) n v) (supers s)
  end.
Lemma put_entry_same_but : forall n e s, same_but n s (put_entry n e s).
Proof.
  intros n e s. split; [now destruct e|]. intros m e' Hm. destruct e, e'; cbn; rewrite ?put_other by assumption; reflexivity.
Qed.
Lemma put_entry_holds : forall n e s, holds (put_entry n e s) n e.
Proof. intros n [v|v|v] s; cbn; apply put_same. Qed.
Lemma put_entry_unique : forall n e s, unique s ->
  (exists_ s n = false \/ exists e0, holds s n e0 /\ entry_ty e0 = entry_ty e) -> unique (put_entry n e s).
Proof.
  intros n e s U H k. destruct (str_dec k n) as [->|Hk].
  2: { specialize (U k). destruct e; cbn; rewrite put_other by assumption; exact U. }
  specialize (U n). destruct H as [H|(e0 & H & T)].
  - apply not_exists_none in H as (A & B & C). destruct e; cbn; rewrite put_same, ?A, ?B, ?C; exact I.
  - destruct e, e0; try discriminate T; cbn in *; rewrite put_same; rewrite H in U;
    destruct (ints s n), (dbls s n), (strs s n); try discriminate; try contradiction; exact I.
Qed.

Lemma current_cases : forall s n, exists cur, current s n cur.
Proof.
  intros s n. destruct (exists_ s n) eqn:E.
  - apply exists_holds in E as [e He]. now exists (Some e).
  - exists None. cbn. now apply not_exists_holds.
Qed.

Lemma assign_eq : forall s n cur v, unique s -> current s n cur ->
  assign_t conv n v s = match assign_rule conv cur v with Some e => Some (put_entry n e s) | None => None end.
Proof.
  intros s n cur v U C. destruct cur as [e|].
  - specialize (U n). destruct e as [w|w|w]; cbn in C; rewrite C in U;
    destruct v as [x|x|x]; cbn; unfold assign_int, assign_dbl, assign_str, create_int, create_dbl, create_str, exists_;
    rewrite ?C;
    destruct (ints s n) eqn:A, (dbls s n) eqn:B, (strs s n) eqn:E; try contradiction; try discriminate; cbn;
    unfold set_int, set_dbl, set_str; try reflexivity; injection C as ->; destruct w; reflexivity.
  - cbn in C. apply not_exists_holds in C. pose proof C as C'. apply not_exists_none in C as (A & B & E).
    destruct v; cbn; unfold assign_int, assign_dbl, assign_str, create_int, create_dbl, create_str;
    rewrite ?A, ?B, ?E, C'; reflexivity.
Qed.

Lemma assign_rule_ty : forall cur v e, assign_rule conv cur v = Some e ->
  match cur with Some e0 => entry_ty e0 = entry_ty e | None => True end.
Proof. intros [[[w|w]|[w|w]|[w|w]]|] [x|x|x] e H; cbn in *; inversion H; subst; auto; reflexivity. Qed.

Lemma current_exists : forall s n cur, current s n cur ->
  match cur with Some e => exists_ s n = true /\ holds s n e | None => exists_ s n = false end.
Proof. intros s n [e|] C; cbn in C; [split; [apply exists_holds; eauto|exact C]|now apply not_exists_holds]. Qed.

(* every operation either fails, or keeps the entries, or puts an entry of an admissible type *)
Lemma apply_op_cases : forall o s s', unique s -> apply_op conv o s = Some s' ->
  (ints s' = ints s /\ dbls s' = dbls s /\ strs s' = strs s) \/
  exists n e, s' = put_entry n e s /\ (exists_ s n = false \/ exists e0, holds s n e0 /\ entry_ty e0 = entry_ty e).
Proof.
  assert (AS : forall n v s s', unique s -> assign_t conv n v s = Some s' ->
    exists n e, s' = put_entry n e s /\ (exists_ s n = false \/ exists e0, holds s n e0 /\ entry_ty e0 = entry_ty e)).
  { intros n v s s' U E. destruct (current_cases s n) as [cur C]. rewrite (assign_eq s n cur v U C) in E.
    destruct (assign_rule conv cur v) as [e|] eqn:R; [|discriminate]. injection E as <-. exists n, e. split; [reflexivity|].
    apply assign_rule_ty in R. apply current_exists in C. destruct cur as [e0|]; [right; exists e0; tauto|left; exact C]. }
  intros o s s' U E. destruct o; cbn in E.
  - right. unfold create_int in E. destruct (exists_ s n) eqn:X; [discriminate|]. injection E as <-. exists n, (EInt v). auto.
  - right. unfold create_dbl in E. destruct (exists_ s n) eqn:X; [discriminate|]. injection E as <-. exists n, (EDbl v). auto.
  - right. unfold create_str in E. destruct (exists_ s n) eqn:X; [discriminate|]. injection E as <-. exists n, (EStr v). auto.
  - right. exact (AS n (VInt x) s s' U E).
  - right. exact (AS n (VDbl x) s s' U E).
  - right. exact (AS n (VStr x) s s' U E).
  - unfold assign_default_int in E. destruct (exists_recursive s n); [injection E as <-; auto|right; exact (AS n (VInt x) s s' U E)].
  - unfold assign_default_dbl in E. destruct (exists_recursive s n); [injection E as <-; auto|right; exact (AS n (VDbl x) s s' U E)].
  - unfold assign_default_str in E. destruct (exists_recursive s n); [injection E as <-; auto|right; exact (AS n (VStr x) s s' U E)].
  - injection E as <-. left. auto.
Qed.

Lemma apply_op_unique : forall o s s', unique s -> apply_op conv o s = Some s' -> unique s'.
Proof.
  intros o s s' U E. destruct (apply_op_cases o s s' U E) as [(A & B & C)|(n & e & -> & H)].
  - intros k. rewrite A, B, C. apply U.
  - now apply put_entry_unique.
Qed.
Lemma apply_op_keeps : forall o s s' n e, unique s -> apply_op conv o s = Some s' -> holds s n e ->
  exists e', holds s' n e' /\ entry_ty e' = entry_ty e.
Proof.
  intros o s s' n e U E H. destruct (apply_op_cases o s s' U E) as [(A & B & C)|(m & e1 & -> & H1)].
  - exists e. split; [|reflexivity]. destruct e; cbn in *; congruence.
  - destruct (str_dec n m) as [->|N].
    + exists e1. split; [apply put_entry_holds|]. destruct H1 as [H1|(e0 & H1 & T)].
      * apply not_exists_holds with (e := e) in H1. contradiction.
      * rewrite <- T. apply unique_one_type in U. exact (U m e0 e H1 H).
    + exists e. split; [|reflexivity]. now apply (put_entry_same_but m e1 s).
Qed.

Lemma run_ops_unique : forall os s, unique s -> unique (run_ops conv os s).
Proof.
  induction os as [|o os IH]; intros s U; cbn; [exact U|]. apply IH. destruct (apply_op conv o s) eqn:E; [|exact U].
  exact (apply_op_unique o s s0 U E).
Qed.
Lemma run_ops_keeps : forall os s n e, unique s -> holds s n e -> exists e', holds (run_ops conv os s) n e' /\ entry_ty e' = entry_ty e.
Proof.
  induction os as [|o os IH]; intros s n e U H; cbn; [eauto|]. destruct (apply_op conv o s) eqn:E; [|now apply IH].
  destruct (apply_op_keeps o s s0 n e U E H) as (e1 & H1 & T1).
  destruct (IH s0 n e1 (apply_op_unique o s s0 U E) H1) as (e2 & H2 & T2). exists e2. split; [exact H2|congruence].
Qed.
Lemma run_ops_app : forall os os' s, run_ops conv (os ++ os') s = run_ops conv os' (run_ops conv os s).
Proof. induction os; intros; cbn; auto. Qed.
Lemma empty_unique : unique (@empty_space D).
Proof. intros n. exact I. Qed.

(** lookup *)
Definition super_pick (n : str) s : option (space D) := find (fun x => exists_recursive x n) (supers s).

Lemma find_int_eq : forall n s, find_int n s =
  match ints s n with
  | Some v => Some v
  | None => if exists_ s n then None else match super_pick n s with Some x => find_int n x | None => None end
  end.
Proof.
  intros n [i d t l]. cbn [find_int ints supers]. destruct (i n); [reflexivity|]. destruct (exists_ _ n); [reflexivity|].
  unfold super_pick. cbn [supers]. induction l as [|x l IH]; [reflexivity|]. cbn. destruct (exists_recursive x n); auto.
Qed.
Lemma find_dbl_eq : forall n s, find_dbl n s =
  match dbls s n, ints s n with
  | Some v, _ => Some (inl v)
  | None, Some v => Some (inr v)
  | None, None => if exists_ s n then None else match super_pick n s with Some x => find_dbl n x | None => None end
  end.
Proof.
  intros n [i d t l]. cbn [find_dbl ints dbls supers]. destruct (d n); [reflexivity|]. destruct (i n); [reflexivity|].
  destruct (exists_ _ n); [reflexivity|].
  unfold super_pick. cbn [supers]. induction l as [|x l IH]; [reflexivity|]. cbn. destruct (exists_recursive x n); auto.
Qed.
Lemma find_str_eq : forall n s, find_str n s =
  match strs s n with
  | Some v => Some v
  | None => if exists_ s n then None else match super_pick n s with Some x => find_str n x | None => None end
  end.
Proof.
  intros n [i d t l]. cbn [find_str strs supers]. destruct (t n); [reflexivity|]. destruct (exists_ _ n); [reflexivity|].
  unfold super_pick. cbn [supers]. induction l as [|x l IH]; [reflexivity|]. cbn. destruct (exists_recursive x n); auto.
Qed.

Lemma found_here : forall n s e, unique s -> holds s n e -> found n s (Some e).
Proof.
  intros n s e U H. assert (X : exists_ s n = true) by (apply exists_holds; eauto).
  unfold found. rewrite find_int_eq, find_dbl_eq, find_str_eq, X. specialize (U n).
  destruct e; cbn in *; rewrite H in *; destruct (ints s n), (dbls s n), (strs s n); try discriminate; try contradiction; auto.
Qed.
Lemma found_super : forall n s x r, exists_ s n = false -> super_pick n s = Some x -> found n x r -> found n s r.
Proof.
  intros n s x r X P (A & B & C). unfold found. rewrite find_int_eq, find_dbl_eq, find_str_eq, X, P.
  apply not_exists_none in X as (-> & -> & ->). auto.
Qed.
Lemma found_nowhere : forall n s, exists_ s n = false -> super_pick n s = None -> found n s None.
Proof.
  intros n s X P. unfold found. rewrite find_int_eq, find_dbl_eq, find_str_eq, X, P.
  apply not_exists_none in X as (-> & -> & ->). auto.
Qed.

Lemma hered_unique : forall s, hereditarily one_type s -> unique s.
Proof. intros s [s' U _]. now apply unique_one_type. Qed.
Lemma hered_super : forall (P : space D -> Prop) s x, hereditarily P s -> In x (supers s) -> hereditarily P x.
Proof. intros P s x [s' _ H] I. now apply H. Qed.

Lemma exists_recursive_eq : forall s n, exists_recursive s n = true <->
  exists_ s n = true \/ (supers s <> [] /\ forall x, In x (supers s) -> exists_ x n = true).
Proof.
  intros s n. unfold exists_recursive. destruct (exists_ s n); [tauto|]. destruct (supers s) as [|y l].
  - split; [discriminate|]. intros [H|[H _]]; [discriminate|congruence].
  - rewrite forallb_forall. split; [intros H; right; split; [discriminate|exact H]|intros [H|[_ H]]; [discriminate|exact H]].
Qed.

Lemma exists_recursive_defined : forall s n, exists_recursive s n = true -> defined n s.
Proof.
  intros s n H. apply exists_recursive_eq in H as [H|[N H]].
  - apply exists_holds in H as [e He]. exact (DefHere n s e He).
  - destruct (supers s) as [|x l] eqn:E; [congruence|]. assert (I : In x (supers s)) by (rewrite E; now left).
    specialize (H x (or_introl eq_refl)). apply exists_holds in H as [e He]. exact (DefSuper n s x I (DefHere n x e He)).
Qed.

(* exists_recursive implies that a lookup succeeds *)
Lemma exists_recursive_found : forall s n, hereditarily one_type s -> exists_recursive s n = true ->
  exists e, found n s (Some e) /\ (holds s n e \/ (exists_ s n = false /\ exists x l, supers s = x :: l /\ holds x n e)).
Proof.
  intros s n U H. destruct (exists_ s n) eqn:X.
  - apply exists_holds in X as [e He]. exists e. split; [apply found_here; [now apply hered_unique|exact He]|left; exact He].
  - apply exists_recursive_eq in H as [H|[N H]]; [congruence|]. destruct (supers s) as [|x l] eqn:E; [congruence|].
    pose proof (H x (or_introl eq_refl)) as Hx. pose proof Hx as Hx'. apply exists_holds in Hx as [e He]. exists e. split.
    + apply (found_super n s x); [exact X| |].
      * unfold super_pick. rewrite E. cbn. unfold exists_recursive. now rewrite Hx'.
      * apply found_here; [|exact He]. apply hered_unique. apply (hered_super _ s x U). rewrite E. now left.
    + right. split; [reflexivity|]. exists x, l. auto.
Qed.

(** the positive results for shallow hierarchies *)
Lemma depth0_supers : forall s, depth_le 0 s -> supers s = [].
Proof. intros s H. inversion H as [k s' E]; subst. destruct (supers s); [reflexivity|]. destruct (E ltac:(discriminate)) as (k' & K & _). discriminate. Qed.
Lemma depth_super : forall k s x, depth_le (S k) s -> In x (supers s) -> depth_le k x.
Proof.
  intros k s x H I. inversion H as [k0 s' E]; subst. destruct E as (k' & K & E'); [intros Z; rewrite Z in I; contradiction|].
  injection K as <-. now apply E'.
Qed.
Lemma depth0_defined : forall s n, depth_le 0 s -> (defined n s <-> exists_ s n = true).
Proof.
  intros s n H. apply depth0_supers in H. rewrite exists_holds. split.
  - intros Hd. inversion Hd; subst; [eauto|]. rewrite H in *. contradiction.
  - intros [e He]. exact (DefHere n s e He).
Qed.
Lemma depth0_recursive : forall s n, depth_le 0 s -> exists_recursive s n = exists_ s n.
Proof. intros s n H. apply depth0_supers in H. unfold exists_recursive. rewrite H. destruct (exists_ s n); reflexivity. Qed.
Lemma depth1_exists_recursive : forall s n, depth_le 1 s -> (length (supers s) <= 1)%nat -> (exists_recursive s n = true <-> defined n s).
Proof.
  intros s n H L. split; [apply exists_recursive_defined|]. intros Hd. apply exists_recursive_eq.
  inversion Hd as [s' e He|s' x I Hx]; subst; [left; apply exists_holds; eauto|]. right.
  split; [intros Z; rewrite Z in I; contradiction|]. intros y Iy.
  destruct (supers s) as [|a [|b l]] eqn:E; cbn in *; [contradiction| |lia].
  destruct I as [->|[]]. destruct Iy as [->|[]]. apply depth0_defined; [|exact Hx].
  apply (depth_super 0 s); [exact H|]. rewrite E. now left.
Qed.

Lemma super_pick_split : forall n s x, super_pick n s = Some x ->
  exists before after, supers s = before ++ x :: after /\ (forall y, In y before -> exists_recursive y n = false) /\ exists_recursive x n = true.
Proof.
  intros n s x. unfold super_pick. induction (supers s) as [|a l IH]; [discriminate|]. cbn. destruct (exists_recursive a n) eqn:E.
  - intros H. injection H as ->. exists [], l. split; [reflexivity|]. split; [intros y []|exact E].
  - intros H. destruct (IH H) as (b & c & Q & R & S). exists (a :: b), c. rewrite Q. split; [reflexivity|]. split; [|exact S].
    intros y [<-|I]; auto.
Qed.
Lemma super_pick_none : forall n s, super_pick n s = None -> forall x, In x (supers s) -> exists_recursive x n = false.
Proof.
  intros n s H x I. destruct (exists_recursive x n) eqn:E; [|reflexivity].
  unfold super_pick in H. apply find_none with (x := x) in H; [congruence|exact I].
Qed.

(* the documented search, when exists_recursive is right for the direct supers *)
Lemma lookup_resolves : forall s n, hereditarily one_type s ->
  (forall x, In x (supers s) -> (exists_recursive x n = true <-> defined n x)) ->
  (forall x e, In x (supers s) -> found n x (Some e) -> resolves n x e) ->
  (forall x, In x (supers s) -> defined n x -> exists e, found n x (Some e)) ->
  (exists e, found n s (Some e) /\ resolves n s e) \/ (found n s None /\ ~ defined n s).
Proof.
  intros s n U R1 R2 R3. destruct (exists_ s n) eqn:X.
  - apply exists_holds in X as [e He]. left. exists e. split; [apply found_here; [now apply hered_unique|exact He]|now apply ResHere].
  - destruct (super_pick n s) as [x|] eqn:P.
    + destruct (super_pick_split n s x P) as (b & c & E & B & Hx).
      assert (I : In x (supers s)) by (rewrite E; apply in_or_app; right; now left).
      assert (Hd : defined n x) by (now apply R1). destruct (R3 x I Hd) as [e He]. left. exists e. split.
      * exact (found_super n s x _ X P He).
      * apply (ResSuper n s b x c); [now apply not_exists_holds|exact E| |now apply R2].
        intros y Iy Dy. assert (In y (supers s)) by (rewrite E; apply in_or_app; now left). apply R1 in Dy; [|assumption].
        rewrite B in Dy; [discriminate|exact Iy].
    + right. split; [now apply found_nowhere|]. intros Hd. inversion Hd as [s' e He|s' x I Hx]; subst.
      * apply not_exists_holds with (e := e) in X. contradiction.
      * pose proof (super_pick_none n s P x I) as Z. apply R1 in Hx; [congruence|exact I].
Qed.

Lemma found_unique : forall n s e e', found n s (Some e) -> found n s (Some e') -> e = e'.
Proof.
  intros n s e e' (A & B & C) (A' & B' & C'). destruct e, e'; cbn in *; try congruence.
Qed.

Lemma depth0_found : forall s n e, hereditarily one_type s -> depth_le 0 s -> found n s (Some e) -> holds s n e.
Proof.
  intros s n e U H F. destruct (exists_ s n) eqn:X.
  - apply exists_holds in X as [e' He]. rewrite (found_unique n s e e' F (found_here n s e' (hered_unique s U) He)). exact He.
  - exfalso. assert (F' : found n s None).
    { apply found_nowhere; [exact X|]. unfold super_pick. now rewrite (depth0_supers s H). }
    destruct F as (A & B & C), F' as (A' & B' & C'). destruct e; cbn in *; congruence.
Qed.
Lemma depth0_defined_found : forall s n, hereditarily one_type s -> depth_le 0 s -> defined n s -> exists e, found n s (Some e).
Proof.
  intros s n U H Hd. apply depth0_defined in Hd; [|exact H]. apply exists_holds in Hd as [e He].
  exists e. apply found_here; [now apply hered_unique|exact He].
Qed.

Lemma lookup_depth1 : forall s n, hereditarily one_type s -> depth_le 1 s ->
  (exists e, found n s (Some e) /\ resolves n s e) \/ (found n s None /\ ~ defined n s).
Proof.
  intros s n U H. apply lookup_resolves; [exact U| | |]; intros x; intros.
  - rewrite depth0_recursive, depth0_defined by (now apply (depth_super 0 s)). reflexivity.
  - apply ResHere. apply depth0_found; [|now apply (depth_super 0 s)|assumption]. now apply (hered_super _ s).
  - apply depth0_defined_found; [now apply (hered_super _ s)|now apply (depth_super 0 s)|assumption].
Qed.
End S.
