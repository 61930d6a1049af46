(** Proofs about boundary conditions. *)
From Coq Require Import Reals List Arith Lia Lra Psatz FunctionalExtensionality.
From Verif Require Import RSum GeomPred_Model GeomPred_Proofs Pde_Model Pde_Spec Pde_Proofs Bc_Model Bc_Spec.
Local Open Scope R_scope.

(** ** Loops *)
Lemma upd_eq f i x : upd f i x i = x.
Proof. unfold upd. now rewrite Nat.eqb_refl. Qed.
Lemma upd_ne f i x j : j <> i -> upd f i x j = f j.
Proof. intros H. unfold upd. destruct (Nat.eqb_spec j i); [contradiction|reflexivity]. Qed.
Lemma loop_S {A} n (body : nat -> A -> A) a : loop (S n) body a = body n (loop n body a).
Proof. unfold loop. rewrite seq_S, fold_left_app. reflexivity. Qed.
(** every pass rewrites its own entry *)
Lemma loop_own n (idx : nat -> nat) (val : nat -> R -> R) f :
  (forall i j, (i < n)%nat -> (j < n)%nat -> idx i = idx j -> i = j) ->
  (forall i, (i < n)%nat -> loop n (fun i g => upd g (idx i) (val i (g (idx i)))) f (idx i) = val i (f (idx i))) /\
  (forall k, (forall i, (i < n)%nat -> k <> idx i) -> loop n (fun i g => upd g (idx i) (val i (g (idx i)))) f k = f k).
Proof.
  induction n as [|n IH]; intros INJ; [split; [intros; lia|reflexivity]|]. destruct IH as [IH1 IH2]; [intros; apply INJ; lia|]. split.
  - intros i I. rewrite loop_S. destruct (Nat.eq_dec i n) as [->|NE].
    + rewrite upd_eq. f_equal. apply IH2. intros j J E. assert (n = j) by (apply INJ; [lia|lia|exact E]). lia.
    + rewrite upd_ne; [apply IH1; lia|]. intros E. apply NE. apply INJ; [lia|lia|exact E].
  - intros k K. rewrite loop_S, upd_ne; [|apply K; lia]. apply IH2. intros i I. apply K. lia.
Qed.
Lemma loop_fill n (idx : nat -> nat) (val : nat -> R) f :
  (forall i j, (i < n)%nat -> (j < n)%nat -> idx i = idx j -> i = j) ->
  (forall i, (i < n)%nat -> loop n (fun i g => upd g (idx i) (val i)) f (idx i) = val i) /\
  (forall k, (forall i, (i < n)%nat -> k <> idx i) -> loop n (fun i g => upd g (idx i) (val i)) f k = f k).
Proof. intros INJ. exact (loop_own n idx (fun i _ => val i) f INJ). Qed.
Lemma range_loop {A} b e (body : nat -> A -> A) a : range b e body a = loop (e - b) (fun i => body (b + i)%nat) a.
Proof. unfold range, loop. generalize (e - b)%nat. intros n. revert a b. induction n as [|n IH]; intros a b; [reflexivity|]. rewrite !seq_S, !fold_left_app, IH. reflexivity. Qed.

(** indices *)
Lemma index_inj nq v v' q q' : (q < nq)%nat -> (q' < nq)%nat -> (v * nq + q = v' * nq + q')%nat -> v = v' /\ q = q'.
Proof.
  intros Q Q' E. assert (V : v = v'). { pose proof (Nat.div_add_l v nq q ltac:(lia)) as A. pose proof (Nat.div_add_l v' nq q' ltac:(lia)) as B. rewrite (Nat.div_small q) in A by lia. rewrite (Nat.div_small q') in B by lia. rewrite E in A. lia. }
  subst. split; [reflexivity|lia].
Qed.
Lemma column_at nq f q : column nq f q = at_q nq f q.
Proof. reflexivity. Qed.
(** a loop over quadrature points whose passes each transform one column *)
Lemma loop_columns nq (body : nat -> (nat -> R) -> nat -> R) (F : nat -> (nat -> R) -> nat -> R) :
  (forall q g, (q < nq)%nat -> at_q nq (body q g) q = F q (at_q nq g q) /\ forall q', (q' < nq)%nat -> q' <> q -> at_q nq (body q g) q' = at_q nq g q') ->
  forall f q, (q < nq)%nat -> at_q nq (loop nq body f) q = F q (at_q nq f q).
Proof.
  intros H. assert (G : forall k, (k <= nq)%nat -> forall f q, (q < nq)%nat -> at_q nq (loop k body f) q = if (q <? k)%nat then F q (at_q nq f q) else at_q nq f q).
  { induction k as [|k IH]; intros K f q Q; [reflexivity|]. rewrite loop_S. destruct (H k (loop k body f) ltac:(lia)) as [A B]. destruct (Nat.eq_dec q k) as [->|NE].
    - rewrite A, IH by lia. rewrite Nat.ltb_irrefl. replace (k <? S k)%nat with true by (symmetry; apply Nat.ltb_lt; lia). reflexivity.
    - rewrite B, IH by (assumption || lia). destruct (Nat.ltb_spec q k), (Nat.ltb_spec q (S k)); try lia; reflexivity. }
  intros f q Q. rewrite G by lia. replace (q <? nq)%nat with true by (symmetry; now apply Nat.ltb_lt). reflexivity.
Qed.
Lemma loop_beyond nq k (body : nat -> (nat -> R) -> nat -> R) f : (forall q g, (q < nq)%nat -> same_beyond k g (body q g)) -> same_beyond k f (loop nq body f).
Proof. induction nq as [|nq IH]; intros H; [intros j _; reflexivity|]. rewrite loop_S. intros j J. rewrite H by lia. apply IH; [intros; apply H; lia|exact J]. Qed.
Lemma loop_column nv nq q (val : nat -> R -> R) g : (q < nq)%nat ->
  at_q nq (loop nv (fun v g => upd g (v * nq + q) (val v (g (v * nq + q)%nat))) g) q = (fun v => if (v <? nv)%nat then val v (at_q nq g q v) else at_q nq g q v) /\
  (forall q', (q' < nq)%nat -> q' <> q -> at_q nq (loop nv (fun v g => upd g (v * nq + q) (val v (g (v * nq + q)%nat))) g) q' = at_q nq g q') /\
  same_beyond (nv * nq) g (loop nv (fun v g => upd g (v * nq + q) (val v (g (v * nq + q)%nat))) g).
Proof.
  intros Q. destruct (loop_own nv (fun v => v * nq + q)%nat val g) as [A B]; [intros i j _ _ E; now apply (index_inj nq i j q q Q Q)|]. split; [|split].
  - apply functional_extensionality. intros v. unfold at_q. destruct (Nat.ltb_spec v nv); [now apply A|]. apply B. intros i I E. destruct (index_inj nq v i q q Q Q E). lia.
  - intros q' Q' NE. apply functional_extensionality. intros v. apply B. intros i I E. destruct (index_inj nq v i q' q Q' Q E). lia.
  - intros j J. apply B. intros i I ->. nia.
Qed.
Lemma write_column_ok nv nq s q g : (q < nq)%nat ->
  at_q nq (write_column nv nq s q g) q = (fun v => if (v <? nv)%nat then s v else at_q nq g q v) /\
  (forall q', (q' < nq)%nat -> q' <> q -> at_q nq (write_column nv nq s q g) q' = at_q nq g q') /\ same_beyond (nv * nq) g (write_column nv nq s q g).
Proof. intros Q. exact (loop_column nv nq q (fun v _ => s v) g Q). Qed.
Lemma fill_loop n val g : (forall i, (i < n)%nat -> loop n (fun i g => upd g i (val i)) g i = val i) /\ same_beyond n g (loop n (fun i g => upd g i (val i)) g).
Proof. destruct (loop_fill n (fun i => i) val g (fun i j _ _ E => E)) as [A B]. split; [exact A|]. intros j J. apply B. intros i I. lia. Qed.
Lemma face_index nv nq v q : (v < nv)%nat -> (q < nq)%nat -> (v * nq + q < nv * nq)%nat.
Proof. nia. Qed.
Lemma nest_fill nv nq (val : nat -> nat -> R) g base :
  (forall v q, (v < nv)%nat -> (q < nq)%nat -> loop nv (fun v g => loop nq (fun q g => upd g ((base + v) * nq + q) (val v q)) g) g ((base + v) * nq + q)%nat = val v q) /\
  (forall k, (forall v q, (v < nv)%nat -> (q < nq)%nat -> k <> ((base + v) * nq + q)%nat) -> loop nv (fun v g => loop nq (fun q g => upd g ((base + v) * nq + q) (val v q)) g) g k = g k).
Proof.
  assert (IN : forall v g, (forall q, (q < nq)%nat -> loop nq (fun q g => upd g ((base + v) * nq + q) (val v q)) g ((base + v) * nq + q)%nat = val v q) /\
    forall k, (forall q, (q < nq)%nat -> k <> ((base + v) * nq + q)%nat) -> loop nq (fun q g => upd g ((base + v) * nq + q) (val v q)) g k = g k).
  { intros v g'. apply (loop_fill nq (fun q => (base + v) * nq + q)%nat (val v) g'). intros i j _ _ E. lia. }
  induction nv as [|nv IH]; [split; [intros; lia|reflexivity]|]. destruct IH as [A B]. split.
  - intros v q V Q. rewrite loop_S. destruct (Nat.eq_dec v nv) as [->|NE]; [now apply IN|]. rewrite (proj2 (IN nv _)); [apply A; lia|]. intros q' Q' E. destruct (index_inj nq _ _ q q' Q Q' E). lia.
  - intros k K. rewrite loop_S. rewrite (proj2 (IN nv _)); [|intros q Q; apply K; lia]. apply B. intros v q V Q. apply K; lia.
Qed.
Lemma copy_ok n in_f g : (forall i, (i < n)%nat -> copy n in_f g i = in_f i) /\ same_beyond n g (copy n in_f g).
Proof. exact (fill_loop n in_f g). Qed.
Lemma negate_ok n in_f g : (forall i, (i < n)%nat -> negate n in_f g i = - in_f i) /\ same_beyond n g (negate n in_f g).
Proof. exact (fill_loop n (fun i => - in_f i) g). Qed.

(** ** Reflection *)
Definition reflect (nd : nat) (m s : nat -> R) : nat -> R := fun v => if (v <? nd)%nat then s v - 2 * along nd m s * m v / along nd m m else s v.
Lemma reflect_ok nq nd g nrml : (forall q, (q < nq)%nat -> at_q nq (reflect_normal g nrml nq nd) q = reflect nd (at_q nq nrml q) (at_q nq g q)) /\ same_beyond (nd * nq) g (reflect_normal g nrml nq nd).
Proof.
  split.
  - intros q Q. unfold reflect_normal.
    rewrite (loop_columns nq _ (fun q s => reflect nd (at_q nq nrml q) s)); [reflexivity| |exact Q]. clear g q Q. intros q g Q.
    set (dt := rsum nd (fun i => g (i * nq + q)%nat * nrml (i * nq + q)%nat)). set (ns := rsum nd (fun i => nrml (i * nq + q)%nat * nrml (i * nq + q)%nat)).
    destruct (loop_column nd nq q (fun i x => x - 2 * dt * nrml (i * nq + q)%nat / ns) g Q) as (A & B & _). split; [rewrite A; reflexivity|exact B].
  - unfold reflect_normal. apply loop_beyond. intros q g' Q.
    exact (proj2 (proj2 (loop_column nd nq q (fun i x => x - 2 * rsum nd (fun i => g' (i * nq + q)%nat * nrml (i * nq + q)%nat) * nrml (i * nq + q)%nat / rsum nd (fun i => nrml (i * nq + q)%nat * nrml (i * nq + q)%nat)) g' Q))).
Qed.
Lemma along_ext nd m s s' : (forall i, (i < nd)%nat -> s i = s' i) -> along nd m s = along nd m s'.
Proof. intros E. apply rsum_ext. intros i I. now rewrite E. Qed.
Lemma along_reflect nd m s : along nd m m <> 0 -> along nd m (reflect nd m s) = - along nd m s.
Proof.
  intros NZ. unfold along at 1. rewrite (rsum_ext nd _ (fun i => s i * m i - 2 * along nd m s / along nd m m * (m i * m i))).
  - rewrite rsum_minus, rsum_scal. change (rsum nd (fun i => m i * m i)) with (along nd m m). change (rsum nd (fun i => s i * m i)) with (along nd m s). field. exact NZ.
  - intros i I. unfold reflect. replace (i <? nd)%nat with true by (symmetry; now apply Nat.ltb_lt). field. exact NZ.
Qed.
Lemma across_reflect nd m s i : along nd m m <> 0 -> (i < nd)%nat -> across nd m (reflect nd m s) i = across nd m s i.
Proof.
  intros NZ I. unfold across. rewrite along_reflect by exact NZ. unfold reflect at 1. replace (i <? nd)%nat with true by (symmetry; now apply Nat.ltb_lt). field. exact NZ.
Qed.
Lemma reflect_twice nd m s v : along nd m m <> 0 -> reflect nd m (reflect nd m s) v = s v.
Proof.
  intros NZ. unfold reflect at 1. rewrite along_reflect by exact NZ. unfold reflect. destruct (v <? nd)%nat; [field; exact NZ|reflexivity].
Qed.
Lemma reflect_energy nd m s : along nd m m <> 0 -> rsum nd (fun i => reflect nd m s i * reflect nd m s i) = rsum nd (fun i => s i * s i).
Proof.
  intros NZ. rewrite (rsum_ext nd _ (fun i => s i * s i - 4 * along nd m s / along nd m m * (s i * m i) + (2 * along nd m s / along nd m m) * (2 * along nd m s / along nd m m) * (m i * m i))).
  - rewrite rsum_plus, rsum_minus, !rsum_scal. change (rsum nd (fun i => m i * m i)) with (along nd m m). change (rsum nd (fun i => s i * m i)) with (along nd m s). field. exact NZ.
  - intros i I. unfold reflect. replace (i <? nd)%nat with true by (symmetry; now apply Nat.ltb_lt). field. exact NZ.
Qed.
Lemma nonpenetration_state_eq nd nv nq in_f nrml g q v : (q < nq)%nat -> (nd <= nv)%nat -> (v < nv)%nat ->
  at_q nq (nonpenetration_state nd nv nq in_f nrml g) q v = reflect nd (at_q nq nrml q) (at_q nq in_f q) v.
Proof.
  intros Q NV V. unfold nonpenetration_state. rewrite (proj1 (reflect_ok nq nd _ nrml) q Q). unfold reflect.
  assert (C : forall w, (w < nv)%nat -> at_q nq (copy (nv * nq) in_f g) q w = at_q nq in_f q w) by (intros w W; apply (proj1 (copy_ok (nv * nq) in_f g)); now apply face_index).
  rewrite C by exact V. rewrite (along_ext nd _ (at_q nq (copy (nv * nq) in_f g) q) (at_q nq in_f q)) by (intros i I; apply C; lia). reflexivity.
Qed.
Lemma nonpenetration_flux_eq nd nv nq in_f nrml g q v : (q < nq)%nat -> (nd <= nv)%nat -> (v < nv)%nat ->
  at_q nq (nonpenetration_flux nd nv nq in_f nrml g) q v = reflect nd (at_q nq nrml q) (fun w => - at_q nq in_f q w) v.
Proof.
  intros Q NV V. unfold nonpenetration_flux. rewrite (proj1 (reflect_ok nq nd _ nrml) q Q). unfold reflect.
  assert (C : forall w, (w < nv)%nat -> at_q nq (negate (nv * nq) in_f g) q w = - at_q nq in_f q w) by (intros w W; apply (proj1 (negate_ok (nv * nq) in_f g)); now apply face_index).
  rewrite C by exact V. rewrite (along_ext nd _ (at_q nq (negate (nv * nq) in_f g) q) (fun w => - at_q nq in_f q w)) by (intros i I; apply C; lia). reflexivity.
Qed.
Lemma same_beyond_trans k k' f g h : (k' <= k)%nat -> same_beyond k f g -> same_beyond k' g h -> same_beyond k f h.
Proof. intros K A B j J. rewrite B by lia. now apply A. Qed.
Lemma same_beyond_weaken k k' f g : (k' <= k)%nat -> same_beyond k' f g -> same_beyond k f g.
Proof. intros K A j J. apply A. lia. Qed.
Lemma along_neg nd m s : along nd m (fun w => - s w) = - along nd m s.
Proof. unfold along. rewrite <- rsum_opp. apply rsum_ext. intros. ring. Qed.

(** ** Characteristic *)
Lemma std_max_l a b : b <= a -> std_max a b = a.
Proof. intros H. unfold std_max. destruct Rlt_dec; [lra|reflexivity]. Qed.
Lemma std_max_ge a b : a <= std_max a b /\ b <= std_max a b.
Proof. unfold std_max. destruct Rlt_dec; lra. Qed.
Lemma sqnorm_upd n s i x : (n <= i)%nat -> sqnorm n (upd s i x) = sqnorm n s.
Proof. intros I. apply rsum_ext. intros j J. rewrite upd_ne by lia. reflexivity. Qed.
Lemma admissible_iff n s : admissible_state n s <-> 0 < s n /\ 0 < internal_energy n s.
Proof. unfold admissible_state, internal_energy. tauto. Qed.
Lemma kin_eq n s : s n <> 0 -> / 2 * sqnorm n s / s n = rsum n (fun i => s i * s i) / (2 * s n).
Proof. intros. unfold sqnorm, dot. field. assumption. Qed.
Lemma kin_nonneg n s : 0 < s n -> 0 <= rsum n (fun i => s i * s i) / (2 * s n).
Proof. intros. apply Rmult_le_pos; [apply (sqnorm_nonneg n s)|left; apply Rinv_0_lt_compat; lra]. Qed.
Lemma limit_ok n state inside : admissible_state n inside ->
  let g := limit_state n state inside in
  inside n / 2 <= g n /\ internal_energy n inside / 2 <= internal_energy n g /\
  (forall i, (i < n)%nat -> g i = state i) /\
  (inside n / 2 <= state n -> g n = state n /\ (internal_energy n inside / 2 <= internal_energy n state -> g (n + 1)%nat = state (n + 1)%nat)).
Proof.
  intros [MI EI]. cbn zeta. unfold limit_state. set (M := std_max (state n) (inside n / 2)). destruct (std_max_ge (state n) (inside n / 2)) as [G1 G2]. fold M in G1, G2.
  rewrite upd_eq, (upd_ne state n M (n + 1)) by lia. rewrite sqnorm_upd by lia. set (K := / 2 * sqnorm n state / M).
  assert (KE : K = rsum n (fun i => state i * state i) / (2 * M)) by (unfold K, sqnorm, dot; field; lra).
  assert (KP : 0 <= K). { rewrite KE. apply Rmult_le_pos; [apply (sqnorm_nonneg n state)|left; apply Rinv_0_lt_compat; lra]. }
  rewrite kin_eq by lra. change (inside (n + 1)%nat - rsum n (fun i => inside i * inside i) / (2 * inside n)) with (internal_energy n inside) in EI |- *.
  destruct (std_max_ge (state (n + 1)%nat - K) (internal_energy n inside / 2)) as [G3 G4]. rewrite (std_max_l _ 0) by lra.
  set (g := upd (upd state n M) (n + 1) _).
  assert (GN : g n = M) by (unfold g; rewrite upd_ne by lia; apply upd_eq).
  assert (GI : forall i, (i < n)%nat -> g i = state i) by (intros i I; unfold g; rewrite !upd_ne by lia; reflexivity).
  assert (GE : internal_energy n g = std_max (state (n + 1)%nat - K) (internal_energy n inside / 2)).
  { unfold internal_energy at 1. rewrite GN. rewrite (rsum_ext n _ (fun i => state i * state i)) by (intros i I; now rewrite GI). rewrite <- KE. unfold g. rewrite upd_eq. ring. }
  split; [rewrite GN; exact G2|]. split; [rewrite GE; exact G4|]. split; [exact GI|]. intros H.
  assert (ME : M = state n) by (unfold M; now apply std_max_l). split; [now rewrite GN|]. intros H'. unfold g. rewrite upd_eq, std_max_l; [ring|]. unfold internal_energy in H' at 2. rewrite KE, ME. exact H'.
Qed.
Lemma riemann_column solve nd nq face_sign fs in_f nrml gh sc q v : (q < nq)%nat -> (v < nd + 2)%nat ->
  at_q nq (fst (riemann_state solve nd (nd + 2) nq face_sign fs in_f nrml gh sc)) q v =
  limit_state nd (apply_char nd solve (at_q nq in_f q) (at_q nq nrml q) (if face_sign then -1 else 1) (at_q nq in_f q) fs) (at_q nq in_f q) v.
Proof.
  intros Q V. unfold riemann_state. cbn [fst]. rewrite (loop_columns nq _ (fun q s v => if (v <? nd + 2)%nat then limit_state nd (apply_char nd solve (at_q nq in_f q) (at_q nq nrml q) (if face_sign then -1 else 1) (at_q nq in_f q) fs) (at_q nq in_f q) v else s v)); [|clear q Q|exact Q].
  - replace (v <? nd + 2)%nat with true by (symmetry; now apply Nat.ltb_lt). reflexivity.
  - intros q g Q. match goal with |- context[write_column _ _ ?s q g] => destruct (write_column_ok (nd + 2) nq s q g Q) as (A & B & _) end. split; [exact A|exact B].
Qed.
Lemma riemann_flux_column solve nd nq face_sign sc in_f nrml gh q v : (q < nq)%nat -> (v < nd + 2)%nat ->
  at_q nq (riemann_flux solve nd (nd + 2) nq face_sign sc in_f nrml gh) q v =
  apply_char nd solve (at_q nq sc q) (at_q nq nrml q) (if face_sign then -1 else 1) (fun _ => 0) (at_q nq in_f q) v.
Proof.
  intros Q V. unfold riemann_flux. rewrite (loop_columns nq _ (fun q s v => if (v <? nd + 2)%nat then apply_char nd solve (at_q nq sc q) (at_q nq nrml q) (if face_sign then -1 else 1) (fun _ => 0) (at_q nq in_f q) v else s v)); [|clear q Q|exact Q].
  - replace (v <? nd + 2)%nat with true by (symmetry; now apply Nat.ltb_lt). reflexivity.
  - intros q g Q. match goal with |- context[write_column _ _ ?s q g] => destruct (write_column_ok (nd + 2) nq s q g Q) as (A & B & _) end. split; [exact A|exact B].
Qed.
Lemma columns_beyond nv nq (s : nat -> (nat -> R)) gh : same_beyond (nv * nq) gh (loop nq (fun q g => write_column nv nq (s q) q g) gh).
Proof. apply loop_beyond. intros q g Q. apply (write_column_ok nv nq (s q) q g Q). Qed.
Lemma rsum_ne0 n f : rsum n f <> 0 -> 0 <= rsum n f -> 0 < rsum n f.
Proof. lra. Qed.

(** ** No slip *)
Lemma range_fill b e val (g : nat -> R) : (forall i, (b <= i < e)%nat -> range b e (fun i g => upd g i (val i)) g i = val i) /\ (forall i, ~ (b <= i < e)%nat -> range b e (fun i g => upd g i (val i)) g i = g i).
Proof.
  destruct (loop_fill (e - b) (fun i => b + i)%nat (fun i => val (b + i)%nat) g) as [A B]; [intros; lia|]. split.
  - intros i I. rewrite range_loop. pose proof (A (i - b)%nat ltac:(lia)) as E. replace (b + (i - b))%nat with i in E by lia. exact E.
  - intros i I. rewrite range_loop. apply B. intros j J. lia.
Qed.
Lemma no_slip_state_entries thermal nd nq in_f gh sc q : (q < nq)%nat ->
  let g := at_q nq (fst (no_slip_state thermal nd (nd + 2) nq in_f gh sc)) q in
  (forall i, (i < nd)%nat -> g i = - at_q nq in_f q i) /\ g nd = at_q nq in_f q nd /\
  g (nd + 1)%nat = ghost_energy thermal (at_q nq in_f q) ^ 2 / at_q nq in_f q (nd + 1)%nat.
Proof.
  intros Q. cbn zeta. unfold no_slip_state. cbn [fst]. unfold at_q.
  destruct (loop_fill nq (fun q => (nd + 1) * nq + q)%nat (fun q => ghost_energy thermal (column nq in_f q) ^ 2 / column nq in_f q (nd + 2 - 1)%nat) (range (nd * nq) ((nd + 1) * nq) (fun i g => upd g i (in_f i)) (loop (nd * nq) (fun i g => upd g i (- in_f i)) gh))) as [A B]; [intros; lia|].
  destruct (range_fill (nd * nq) ((nd + 1) * nq) in_f (loop (nd * nq) (fun i g => upd g i (- in_f i)) gh)) as [C D].
  destruct (fill_loop (nd * nq) (fun i => - in_f i) gh) as [E F]. cbn beta in *. split; [|split].
  - intros i I. pose proof (face_index nd nq i q I Q). rewrite B by (intros; nia). rewrite D by nia. apply E. exact H.
  - rewrite B by (intros; nia). apply C. nia.
  - rewrite A by exact Q. replace (nd + 2 - 1)%nat with (nd + 1)%nat by lia. reflexivity.
Qed.
Lemma no_slip_cache thermal nd nq in_f gh sc q v : (q < nq)%nat -> (v < nd + 2)%nat ->
  at_q nq (snd (no_slip_state thermal nd (nd + 2) nq in_f gh sc)) q v = average (at_q nq in_f q) (at_q nq (fst (no_slip_state thermal nd (nd + 2) nq in_f gh sc)) q) v.
Proof.
  intros Q V. unfold no_slip_state. cbn [fst snd]. unfold average, at_q. rewrite (proj1 (fill_loop _ _ _)) by now apply face_index. field.
Qed.
Lemma no_slip_flux_entries thermal coercion nd nq face_sign sc in_f nrml gh q : (q < nq)%nat ->
  let g := at_q nq (no_slip_flux thermal coercion nd (nd + 2) nq face_sign sc in_f nrml gh) q in
  let f := at_q nq in_f q in
  (forall i, (i < nd)%nat -> g i = f i) /\ g nd = - f nd /\
  (let normal := sqrt (along nd (at_q nq nrml q) (at_q nq nrml q)) in let sign := if face_sign then 1 else -1 in
   g (nd + 1)%nat = coercion * (normal * sign * ghost_heat_flux thermal (at_q nq sc q) (f (nd + 1)%nat * sign / normal) - f (nd + 1)%nat) + f (nd + 1)%nat).
Proof.
  intros Q. cbn zeta. unfold no_slip_flux, at_q.
  set (val := fun q => coercion * (sqrt (rsum nd (fun i => nrml (i * nq + q)%nat * nrml (i * nq + q)%nat)) * (if face_sign then 1 else -1) * ghost_heat_flux thermal (column nq sc q) (in_f (q + (nd + 1) * nq)%nat * (if face_sign then 1 else -1) / sqrt (rsum nd (fun i => nrml (i * nq + q)%nat * nrml (i * nq + q)%nat))) - in_f (q + (nd + 1) * nq)%nat) + in_f (q + (nd + 1) * nq)%nat).
  destruct (loop_fill nq (fun q => q + (nd + 1) * nq)%nat val (range (nd * nq) ((nd + 1) * nq) (fun i g => upd g i (- in_f i)) (loop (nd * nq) (fun i g => upd g i (in_f i)) gh))) as [A B]; [intros; lia|].
  destruct (range_fill (nd * nq) ((nd + 1) * nq) (fun i => - in_f i) (loop (nd * nq) (fun i g => upd g i (in_f i)) gh)) as [C D].
  destruct (fill_loop (nd * nq) in_f gh) as [E F]. cbn beta in *. unfold val in A, B. split; [|split].
  - intros i I. pose proof (face_index nd nq i q I Q). rewrite B by (intros; nia). rewrite D by nia. apply E. exact H.
  - rewrite B by (intros; nia). apply C. nia.
  - replace ((nd + 1) * nq + q)%nat with (q + (nd + 1) * nq)%nat by lia. rewrite A by exact Q. reflexivity.
Qed.

(** ** Advected scalars *)
Lemma loop_column_from base nv nq q (val : nat -> R) g : (q < nq)%nat ->
  at_q nq (loop nv (fun a g => upd g ((base + a) * nq + q) (val a)) g) q = (fun v => if (base <=? v)%nat && (v <? base + nv)%nat then val (v - base)%nat else at_q nq g q v)%bool /\
  (forall q', (q' < nq)%nat -> q' <> q -> at_q nq (loop nv (fun a g => upd g ((base + a) * nq + q) (val a)) g) q' = at_q nq g q').
Proof.
  intros Q. destruct (loop_fill nv (fun a => (base + a) * nq + q)%nat val g) as [A B]; [intros i j _ _ E; destruct (index_inj nq _ _ q q Q Q E); lia|]. split.
  - apply functional_extensionality. intros v. unfold at_q. destruct (Nat.leb_spec base v); cbn [andb].
    + destruct (Nat.ltb_spec v (base + nv)).
      * pose proof (A (v - base)%nat ltac:(lia)) as E. replace (base + (v - base))%nat with v in E by lia. exact E.
      * apply B. intros i I E. destruct (index_inj nq _ _ q q Q Q E). lia.
    + apply B. intros i I E. destruct (index_inj nq _ _ q q Q Q E). lia.
  - intros q' Q' NE. apply functional_extensionality. intros v. apply B. intros i I E. destruct (index_inj nq _ _ q' q Q' Q E). lia.
Qed.
Lemma nonpenetration_advection_eq nd na nq in_f nrml gh q v : (q < nq)%nat -> (v < nd + na)%nat ->
  at_q nq (nonpenetration_advection nd na nq in_f nrml gh) q v = reflect nd (at_q nq nrml q) (at_q nq in_f q) v.
Proof.
  intros Q V. unfold nonpenetration_advection.
  rewrite (loop_columns nq _ (fun q s v => if (v <? nd + na)%nat then reflect nd (at_q nq nrml q) (at_q nq in_f q) v else s v)); [|clear v V q Q|exact Q].
  - replace (v <? nd + na)%nat with true by (symmetry; now apply Nat.ltb_lt). reflexivity.
  - intros q g Q. cbn zeta.
    set (vel := fun i => column nq in_f q i - 2 * dot nd (column nq in_f q) (column nq nrml q) * column nq nrml q i / sqnorm nd (column nq nrml q)).
    destruct (loop_column nd nq q (fun v _ => vel v) g Q) as (A & B & _). set (g1 := loop nd (fun i g => upd g (i * nq + q) (vel i)) g) in *.
    change (at_q nq g1 q = (fun v => if (v <? nd)%nat then vel v else at_q nq g q v)) in A. change (forall q', (q' < nq)%nat -> q' <> q -> at_q nq g1 q' = at_q nq g q') in B.
    destruct (loop_column_from nd na nq q (fun a => in_f ((nd + a) * nq + q)%nat) g1 Q) as (C & D). cbn beta in C, D. split.
    + etransitivity; [exact C|]. apply functional_extensionality. intros v. rewrite A. destruct (Nat.leb_spec nd v), (Nat.ltb_spec v (nd + na)); cbn [andb]; try lia.
      * unfold reflect. replace (v <? nd)%nat with false by (symmetry; apply Nat.ltb_ge; lia). replace (nd + (v - nd))%nat with v by lia. reflexivity.
      * replace (v <? nd)%nat with false by (symmetry; apply Nat.ltb_ge; lia). reflexivity.
      * unfold reflect. replace (v <? nd)%nat with true by (symmetry; now apply Nat.ltb_lt). reflexivity.
    + intros q' Q' NE. etransitivity; [exact (D q' Q' NE)|exact (B q' Q' NE)].
Qed.
Lemma no_slip_advection_eq nd na nq in_f gh q v : (q < nq)%nat -> (v < nd + na)%nat ->
  at_q nq (no_slip_advection nd na nq in_f gh) q v = if (v <? nd)%nat then - at_q nq in_f q v else at_q nq in_f q v.
Proof.
  intros Q V. unfold no_slip_advection, at_q. pose proof (nest_fill nd nq (fun i q => - in_f (i * nq + q)%nat) gh 0) as [A B]. cbn [Nat.add] in A, B.
  set (g1 := loop nd _ gh) in *. destruct (nest_fill na nq (fun a q => in_f ((nd + a) * nq + q)%nat) g1 nd) as [C D]. cbn beta in *. destruct (Nat.ltb_spec v nd).
  - rewrite D. { now apply A. } intros w q' W Q' E. destruct (index_inj nq _ _ q q' Q Q' E). lia.
  - pose proof (C (v - nd)%nat q ltac:(lia) Q) as E. replace (nd + (v - nd))%nat with v in E by lia. exact E.
Qed.
Lemma default_advection_eq nd na nq in_f gh q v : (q < nq)%nat -> (v < nd + na)%nat ->
  at_q nq (default_advection nd na nq in_f gh) q v = if (v <? nd)%nat then at_q nq in_f q v else 2 - at_q nq in_f q v.
Proof.
  intros Q V. unfold default_advection, at_q. pose proof (nest_fill nd nq (fun i q => in_f (i * nq + q)%nat) gh 0) as [A B]. cbn [Nat.add] in A, B.
  set (g1 := loop nd _ gh) in *. destruct (loop_fill (na * nq) (fun i => nd * nq + i)%nat (fun i => 2 - in_f (nd * nq + i)%nat) g1) as [C D]; [intros; lia|]. cbn beta in *. destruct (Nat.ltb_spec v nd).
  - rewrite D by (intros; nia). now apply A.
  - pose proof (C ((v - nd) * nq + q)%nat ltac:(nia)) as E. replace (nd * nq + ((v - nd) * nq + q))%nat with (v * nq + q)%nat in E by nia. exact E.
Qed.
Lemma freestream_state_eq nv nq fs gh : (forall q v, (q < nq)%nat -> (v < nv)%nat -> at_q nq (freestream_state nv nq fs gh) q v = fs v) /\ same_beyond (nv * nq) gh (freestream_state nv nq fs gh).
Proof.
  unfold freestream_state, at_q. pose proof (nest_fill nv nq (fun v _ => fs v) gh 0) as [A B]. cbn [Nat.add] in A, B. split.
  - intros q v Q V. now apply A.
  - intros j J. apply B. intros v q V Q. pose proof (face_index nv nq v q V Q). lia.
Qed.

(** ** Pressure outflow *)
Lemma pressure_outflow_eq nd nq face_sign pres in_f nrml gh q : (q < nq)%nat -> admissible_state nd (at_q nq in_f q) -> 0 < along nd (at_q nq nrml q) (at_q nq nrml q) ->
  let s := at_q nq in_f q in let m := dir (make_chars nd s (at_q nq nrml q)) in
  let g := at_q nq (pressure_outflow_state nd (nd + 2) nq face_sign pres in_f nrml gh) q in
  forall v, (v < nd + 2)%nat -> g v = if Rlt_dec (normal_velocity nd s m * (if face_sign then 1 else -1)) (sound_speed nd s) then upd s (nd + 1) (pres / (4 / 10) + / 2 * sqnorm nd s / s nd) v else s v.
Proof.
  intros Q AD NZ s m g v V. unfold g, pressure_outflow_state.
  set (ghost := fun q : nat => let inside := column nq in_f q in let n := column nq nrml q in let nrml_veloc := dot nd inside n / inside nd / sqrt (sqnorm nd n) in let kin := / 2 * sqnorm nd inside / inside nd in let prs := std_max (4 / 10 * (inside (nd + 1)%nat - kin)) 0 in
     if Rlt_dec (nrml_veloc * (if face_sign then 1 else -1)) (sqrt (14 / 10 * prs / inside nd)) then upd inside (nd + 1) (pres / (4 / 10) + kin) else inside).
  change (at_q nq (loop nq (fun q g => write_column (nd + 2) nq (ghost q) q g) gh) q v = if Rlt_dec (normal_velocity nd s m * (if face_sign then 1 else -1)) (sound_speed nd s) then upd s (nd + 1) (pres / (4 / 10) + / 2 * sqnorm nd s / s nd) v else s v).
  rewrite (loop_columns nq _ (fun q c v => if (v <? nd + 2)%nat then ghost q v else c v)); [| |exact Q].
  2: { intros q' g' Q'. destruct (write_column_ok (nd + 2) nq (ghost q') q' g' Q') as (A & B & _). split; [exact A|exact B]. }
  replace (v <? nd + 2)%nat with true by (symmetry; now apply Nat.ltb_lt). unfold ghost. cbn zeta. change (column nq in_f q) with s. change (column nq nrml q) with (at_q nq nrml q). destruct AD as [MP EP]. fold s in MP, EP.
  assert (NV : dot nd s (at_q nq nrml q) / s nd / sqrt (sqnorm nd (at_q nq nrml q)) = normal_velocity nd s m).
  { change (along nd (at_q nq nrml q) (at_q nq nrml q)) with (sqnorm nd (at_q nq nrml q)) in NZ. pose proof (sqrt_lt_R0 _ NZ) as SP. unfold normal_velocity, m. cbn [dir make_chars].
    rewrite (rsum_ext nd (fun i => s i * (at_q nq nrml q i / sqrt (sqnorm nd (at_q nq nrml q)))) (fun i => / sqrt (sqnorm nd (at_q nq nrml q)) * (s i * at_q nq nrml q i))) by (intros; field; lra). rewrite rsum_scal. unfold dot. field. split; lra. }
  assert (SS : sqrt (14 / 10 * std_max (4 / 10 * (s (nd + 1)%nat - / 2 * sqnorm nd s / s nd)) 0 / s nd) = sound_speed nd s).
  { rewrite kin_eq by lra. rewrite std_max_l by lra. unfold sound_speed, euler_pressure. f_equal. field. lra. }
  rewrite NV, SS. destruct Rlt_dec; reflexivity.
Qed.

(** ** Components through the outward normal *)
Lemma euler_flux_flip n m s k : euler_flux n (fun i => - m i) s k = - euler_flux n m s k.
Proof.
  unfold euler_flux. assert (V : normal_velocity n s (fun i => - m i) = - normal_velocity n s m).
  { unfold normal_velocity. rewrite (rsum_ext n _ (fun i => - (s i * m i))) by (intros; ring). rewrite rsum_opp. unfold Rdiv. ring. }
  rewrite V. destruct (Nat.ltb k n); [ring|]. destruct (Nat.eqb k n); ring.
Qed.
Lemma normal_velocity_flip n s m : normal_velocity n s (fun i => - m i) = - normal_velocity n s m.
Proof. unfold normal_velocity. rewrite (rsum_ext n _ (fun i => - (s i * m i))) by (intros; ring). rewrite rsum_opp. unfold Rdiv. ring. Qed.
Lemma eigen_flip n m s d lambda : jacobian_eigenvector n (euler_flux n m) s d lambda -> jacobian_eigenvector n (euler_flux n (fun i => - m i)) s d (- lambda).
Proof.
  intros H k K. replace (fun t => euler_flux n (fun i => - m i) (fun i => s i + t * d i) k) with (opp_fct (fun t => euler_flux n m (fun i => s i + t * d i) k)).
  - replace (- lambda * d k) with (- (lambda * d k)) by ring. apply derivable_pt_lim_opp. now apply H.
  - apply functional_extensionality. intros t. unfold opp_fct. now rewrite euler_flux_flip.
Qed.
(** the component of the decomposition which is number [j] through the outward normal *)
Definition order (positive : bool) (j : nat) : nat := if positive then j else match j with 0%nat => 1%nat | 1%nat => 0%nat | _ => j end.
Lemma outward_dir n positive s nrml : outward n positive nrml = if positive then dir (make_chars n s nrml) else fun i => - dir (make_chars n s nrml) i.
Proof. destruct positive; apply functional_extensionality; intros i; unfold outward; cbn [dir make_chars]; change (along n nrml nrml) with (sqnorm n nrml); unfold Rdiv; ring. Qed.
Lemma speed_order n positive s nrml j : admissible_state n s -> (j < 3)%nat -> speed n s (outward n positive nrml) j = (if positive then 1 else -1) * vals (make_chars n s nrml) (order positive j).
Proof.
  intros A J. rewrite (outward_dir n positive s nrml). destruct (vals_eq n s nrml A) as (V0 & V1 & V2).
  destruct positive, j as [|[|[|j]]]; try lia; cbn [order speed]; rewrite ?V0, ?V1, ?V2, ?normal_velocity_flip; ring.
Qed.
Lemma components_decomp n solve positive s nrml x : admissible_state n s -> 0 < along n nrml nrml -> solves_regular solve ->
  components n s (outward n positive nrml) x (fun j k => decomp n solve (make_chars n s nrml) x k (order positive j)).
Proof.
  intros A NZ SV. split.
  - intros k K. pose proof (decomp_sum n solve s nrml A SV x k K) as E. destruct positive; cbn [order]; lra.
  - intros j J. rewrite speed_order by assumption. rewrite (outward_dir n positive s nrml). assert (OJ : (order positive j < 3)%nat) by (destruct positive, j as [|[|[|j]]]; cbn [order]; lia).
    pose proof (decomp_eigen n solve s nrml A NZ x _ OJ) as E. destruct positive.
    + replace (1 * vals (make_chars n s nrml) (order true j)) with (vals (make_chars n s nrml) (order true j)) by ring. exact E.
    + replace (-1 * vals (make_chars n s nrml) (order false j)) with (- vals (make_chars n s nrml) (order false j)) by ring. now apply eigen_flip.
Qed.
Lemma apply_char_eq n solve (positive : bool) s nrml inside outside k : admissible_state n s ->
  apply_char n solve s nrml (if positive then -1 else 1) inside outside k =
  rsum 3 (fun j => if Rle_dec 0 (speed n s (outward n positive nrml) j) then decomp n solve (make_chars n s nrml) inside k (order positive j) else decomp n solve (make_chars n s nrml) outside k (order positive j)).
Proof.
  intros A. unfold apply_char. cbn [rsum]. rewrite !speed_order by (assumption || lia). destruct positive; cbn [order]; repeat (destruct Rlt_dec; destruct Rle_dec; try lra).
  all: repeat (destruct Rlt_dec; try lra). all: repeat (destruct Rle_dec; try lra).
Qed.
Lemma decomp_ext n solve ch x y k j : (forall v, (v < n + 2)%nat -> x v = y v) -> decomp n solve ch x k j = decomp n solve ch y k j.
Proof.
  intros E. unfold decomp. assert (N : nrml n ch x = nrml n ch y) by (unfold nrml, dot; apply rsum_ext; intros i I; rewrite E by lia; reflexivity).
  assert (C : forall i, (i < n)%nat -> tang n ch x i - x n * tang n ch (veloc ch) i = tang n ch y i - y n * tang n ch (veloc ch) i) by (intros i I; unfold tang at 1 3; rewrite N, !E by lia; reflexivity).
  assert (DT : dot n (veloc ch) (fun i => tang n ch x i - x n * tang n ch (veloc ch) i) = dot n (veloc ch) (fun i => tang n ch y i - y n * tang n ch (veloc ch) i)) by (unfold dot; apply rsum_ext; intros i I; rewrite C by exact I; reflexivity).
  rewrite DT, N, (E n), (E (n + 1)%nat) by lia. destruct (Nat.ltb_spec k n); [|reflexivity]. pose proof (C k ltac:(assumption)) as CK. rewrite (E n) in CK by lia. rewrite CK. reflexivity.
Qed.
Lemma regular_kernel M x : det3 M <> 0 -> (forall i, (i < 3)%nat -> rsum 3 (fun j => M i j * x j) = 0) -> forall j, (j < 3)%nat -> x j = 0.
Proof.
  intros D H j J. pose proof (H 0%nat ltac:(lia)) as H0. pose proof (H 1%nat ltac:(lia)) as H1. pose proof (H 2%nat ltac:(lia)) as H2. cbn [rsum] in H0, H1, H2.
  set (a := M 0%nat 0%nat) in *. set (b := M 0%nat 1%nat) in *. set (c := M 0%nat 2%nat) in *. set (d := M 1%nat 0%nat) in *. set (e := M 1%nat 1%nat) in *. set (f := M 1%nat 2%nat) in *. set (g := M 2%nat 0%nat) in *. set (h := M 2%nat 1%nat) in *. set (k := M 2%nat 2%nat) in *.
  set (x0 := x 0%nat) in *. set (x1 := x 1%nat) in *. set (x2 := x 2%nat) in *.
  assert (E0 : det3 M * x0 = (0 + a * x0 + b * x1 + c * x2) * (e * k - f * h) - (0 + d * x0 + e * x1 + f * x2) * (b * k - c * h) + (0 + g * x0 + h * x1 + k * x2) * (b * f - c * e)) by (unfold det3; fold a b c d e f g h k; ring).
  assert (E1 : det3 M * x1 = - (0 + a * x0 + b * x1 + c * x2) * (d * k - f * g) + (0 + d * x0 + e * x1 + f * x2) * (a * k - c * g) - (0 + g * x0 + h * x1 + k * x2) * (a * f - c * d)) by (unfold det3; fold a b c d e f g h k; ring).
  assert (E2 : det3 M * x2 = (0 + a * x0 + b * x1 + c * x2) * (d * h - e * g) - (0 + d * x0 + e * x1 + f * x2) * (a * h - b * g) + (0 + g * x0 + h * x1 + k * x2) * (a * e - b * d)) by (unfold det3; fold a b c d e f g h k; ring).
  rewrite H0, H1, H2 in E0, E1, E2. assert (Z : det3 M * x j = 0). { destruct j as [|[|[|j]]]; [fold x0; rewrite E0; ring|fold x1; rewrite E1; ring|fold x2; rewrite E2; ring|lia]. }
  destruct (Rmult_integral _ _ Z); [contradiction|assumption].
Qed.
Lemma decomp_zero n solve s direction k j : admissible_state n s -> 0 < sqnorm n direction -> solves_regular solve -> (j < 3)%nat -> decomp n solve (make_chars n s direction) (fun _ => 0) k j = 0.
Proof.
  intros A NZ SV J. set (ch := make_chars n s direction). assert (N0 : nrml n ch (fun _ => 0) = 0) by (unfold nrml, dot; rewrite (rsum_ext n _ (fun _ => 0)) by (intros; ring); apply rsum_0).
  unfold decomp. assert (MC : forall i, tang n ch (fun _ => 0) i - 0 * tang n ch (veloc ch) i = 0) by (intros i; unfold tang; rewrite N0; ring).
  assert (DT : dot n (veloc ch) (fun i => tang n ch (fun _ => 0) i - 0 * tang n ch (veloc ch) i) = 0) by (unfold dot; rewrite (rsum_ext n _ (fun _ => 0)) by (intros i I; rewrite MC; ring); apply rsum_0).
  rewrite DT, N0. set (b := fun i => match i with 0%nat => 0 | 1%nat => 0 | _ => 0 - 0 end).
  assert (S0 : forall j, (j < 3)%nat -> solve (vecs ch) b j = 0). { intros j' J'. apply (regular_kernel (vecs ch)); [now apply det_nonzero| |exact J']. intros i I. rewrite SV by (now apply det_nonzero || exact I). unfold b. destruct i as [|[|i]]; ring. }
  rewrite S0 by exact J. rewrite MC. destruct (k <? n)%nat, (k =? n)%nat, (j =? 2)%nat; ring.
Qed.
