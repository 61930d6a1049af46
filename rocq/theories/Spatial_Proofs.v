(** Loops, rows and integrals of the kernels. *)
From Coq Require Import Reals List Arith Lia Lra FunctionalExtensionality Permutation.
From Verif Require Import Outcome RSum Tensor_Spec Tensor_Proofs Row_Model Row_Spec Row_Proofs Connection_Model Quad_Model Quad_Spec Quad_Proofs Quad_Proofs2 Spatial_Model Spatial_Spec.
Import ListNotations.
Local Open Scope R_scope.

(** ** loops *)
Lemma loop_0 {S} body (s : S) : loop 0 body s = s. Proof. reflexivity. Qed.
Lemma loop_S {S} n body (s : S) : loop (Datatypes.S n) body s = body n (loop n body s).
Proof. unfold loop. rewrite seq_S, fold_left_app. reflexivity. Qed.
Lemma loop_ext {S} n b b' (s : S) : (forall i s, (i < n)%nat -> b i s = b' i s) -> loop n b s = loop n b' s.
Proof. induction n as [|n IH]; intros H; [reflexivity|]. rewrite !loop_S, IH by (intros; apply H; lia). apply H. lia. Qed.
Lemma loop_inv {S} (P : nat -> S -> Prop) n body s : P O s -> (forall i s, (i < n)%nat -> P i s -> P (Datatypes.S i) (body i s)) -> P n (loop n body s).
Proof. intros H0 H. induction n as [|n IH]; [exact H0|]. rewrite loop_S. apply H; [lia|]. apply IH. intros; apply H; [lia|assumption]. Qed.
Lemma loop_add {S} a b body (s : S) : loop (a + b) body s = loop b (fun j => body (a + j)%nat) (loop a body s).
Proof. induction b as [|b IH]; [now rewrite Nat.add_0_r|]. rewrite Nat.add_succ_r, !loop_S, IH. reflexivity. Qed.
Lemma loop_nest {S} a b body (s : S) : loop a (fun i => loop b (fun j => body (i * b + j)%nat)) s = loop (a * b) body s.
Proof. induction a as [|a IH]; [reflexivity|]. rewrite loop_S, IH. replace (Datatypes.S a * b)%nat with (a * b + b)%nat by lia. now rewrite loop_add. Qed.

Lemma rows_of_eq nd rs id : (0 < rs)%nat -> (0 < nd)%nat -> rows_of nd rs id = map (nth_row nd rs id) (seq 0 (rs ^ (nd - 1))).
Proof. intros H N. unfold rows_of. rewrite row_begin_nth, row_loop_nth by lia. reflexivity. Qed.
Lemma fold_left_map' {A B C} (f : B -> C -> B) (h : A -> C) l b : fold_left f (map h l) b = fold_left (fun b a => f b (h a)) l b.
Proof. revert b; induction l as [|a l IH]; intros b; cbn; auto. Qed.
Lemma for_rows_eq {S} nd rs id body (s : S) : (0 < rs)%nat -> (0 < nd)%nat -> for_rows nd rs id body s = loop (rs ^ (nd - 1)) (fun f => body (nth_row nd rs id f)) s.
Proof. intros H N. unfold for_rows. rewrite rows_of_eq by assumption. apply fold_left_map'. Qed.

Lemma put_in a k x : put a k x k = x. Proof. unfold put. now rewrite Nat.eqb_refl. Qed.
Lemma put_out a k x i : i <> k -> put a k x i = a i. Proof. intros H. unfold put. destruct (Nat.eqb_spec i k); congruence. Qed.
Lemma fput_in {A} (a : nat -> A) k x : fput a k x k = x. Proof. unfold fput. now rewrite Nat.eqb_refl. Qed.
Lemma fput_out {A} (a : nat -> A) k x i : i <> k -> fput a k x i = a i. Proof. intros H. unfold fput. destruct (Nat.eqb_spec i k); congruence. Qed.

(** loops that write each place once *)
Lemma loop_put_out n idx g (a : arr) k : (forall i, (i < n)%nat -> idx i <> k) -> loop n (fun i a => put a (idx i) (g i (a (idx i)))) a k = a k.
Proof. intros H. induction n as [|n IH]; [reflexivity|]. rewrite loop_S, put_out by (apply not_eq_sym, H; lia). apply IH. intros; apply H; lia. Qed.
Lemma loop_put_in n idx g (a : arr) i : (forall i j, (i < n)%nat -> (j < n)%nat -> idx i = idx j -> i = j) -> (i < n)%nat ->
  loop n (fun i a => put a (idx i) (g i (a (idx i)))) a (idx i) = g i (a (idx i)).
Proof.
  intros J I. induction n as [|n IH]; [lia|]. rewrite loop_S. destruct (Nat.eq_dec i n) as [->|E].
  - rewrite put_in. f_equal. apply loop_put_out. intros j Hj Q. apply J in Q; lia.
  - rewrite put_out by (intros Q; apply J in Q; lia). apply IH; [|lia]. intros; apply J; lia.
Qed.

(** ** sums *)
Lemma rsum_image n m (h : nat -> nat) f : (forall j, (j < m)%nat -> (h j < n)%nat) -> (forall i j, (i < m)%nat -> (j < m)%nat -> h i = h j -> i = j) ->
  (forall q, (q < n)%nat -> (forall j, (j < m)%nat -> h j <> q) -> f q = 0) -> rsum n f = rsum m (fun j => f (h j)).
Proof.
  revert f; induction m as [|m IH]; intros f B J Z.
  - cbn. rewrite <- (rsum_0 n). apply rsum_ext. intros q Q. apply Z; [exact Q|lia].
  - cbn [rsum]. rewrite (rsum_ext m (fun j => f (h j)) (fun j => if (h j =? h m)%nat then 0 else f (h j))).
    2:{ intros j Hj. destruct (Nat.eqb_spec (h j) (h m)) as [E|]; [|reflexivity]. apply J in E; lia. }
    rewrite <- (IH (fun q => if (q =? h m)%nat then 0 else f q)).
    + replace (f (h m)) with (rsum n (fun q => if (q =? h m)%nat then f q else 0)).
      * rewrite <- rsum_plus. apply rsum_ext. intros q _. destruct (q =? h m)%nat; lra.
      * rewrite (rsum_single n (h m)); [now rewrite Nat.eqb_refl|apply B; lia|]. intros q _ E. destruct (Nat.eqb_spec q (h m)); [contradiction|reflexivity].
    + intros; apply B; lia.
    + intros; apply J; lia.
    + intros q Q H. destruct (Nat.eqb_spec q (h m)); [reflexivity|]. apply Z; [exact Q|]. intros j Hj. destruct (Nat.eq_dec j m) as [->|E]; [congruence|apply H; lia].
Qed.

(** ** rows *)
Lemma ri_nq nd rs id f : ri_n_qpoint (nth_row nd rs id f) = (rs ^ nd)%nat. Proof. reflexivity. Qed.
Lemma ri_nfq nd rs id f : (0 < rs)%nat -> (0 < nd)%nat -> ri_n_fqpoint (nth_row nd rs id f) = (rs ^ (nd - 1))%nat. Proof. intros. cbn. now apply pow_div. Qed.
Lemma flat_inj n v q v' q' : (q < n)%nat -> (q' < n)%nat -> (v * n + q = v' * n + q')%nat -> v = v' /\ q = q'.
Proof. intros H H' E. assert (v = v') by (destruct (lt_eq_lt_dec v v') as [[L|L]|L]; nia). subst v'. split; [reflexivity|lia]. Qed.
Section Row.
Variables (nd rs id f : nat).
Hypotheses (R : (0 < rs)%nat) (I : (id < nd)%nat) (F : (f < rs ^ (nd - 1))%nat).
Let ind := nth_row nd rs id f.
Let at_ v j := (v * rs ^ nd + i_qpoint ind j)%nat.
Lemma qp_lt j : (j < rs)%nat -> (i_qpoint ind j < rs ^ nd)%nat. Proof. now apply qpoint_lt. Qed.
Lemma put_row_out n_var w data coef k : (forall v j, (v < n_var)%nat -> (j < rs)%nat -> at_ v j <> k) -> put_row n_var rs w data ind coef k = data k.
Proof.
  intros H. unfold put_row. induction n_var as [|n IH]; [reflexivity|]. rewrite loop_S.
  rewrite (loop_put_out rs (fun j => at_ n j) (fun j x => coef * x + w j n)) by (intros; apply H; lia). apply IH. intros; apply H; lia.
Qed.
Lemma put_row_in n_var w data coef v j : (v < n_var)%nat -> (j < rs)%nat -> put_row n_var rs w data ind coef (at_ v j) = coef * data (at_ v j) + w j v.
Proof.
  intros V J. unfold put_row. induction n_var as [|n IH]; [lia|]. rewrite loop_S. destruct (Nat.eq_dec v n) as [->|E].
  - rewrite (loop_put_in rs (fun j => at_ n j) (fun j x => coef * x + w j n)); [|intros a b A B Q; unfold at_ in Q; apply (qpoint_inj nd rs id f a f b R I A B); fold ind; lia|exact J].
    f_equal. f_equal. apply (put_row_out n w data coef). intros v' j' V' J' Q. apply flat_inj in Q; [lia|now apply qp_lt|now apply qp_lt].
  - rewrite (loop_put_out rs (fun j => at_ n j) (fun j x => coef * x + w j n)); [apply IH; lia|]. intros j' J' Q. apply flat_inj in Q; [lia|now apply qp_lt|now apply qp_lt].
Qed.
End Row.

(** ** weights *)
Definition skip (id k : nat) : nat := if (k <? id)%nat then k else S k.
Lemma rprod_split n id g : (id < n)%nat -> rprod n g = g id * rprod (n - 1) (fun k => g (skip id k)).
Proof.
  revert id; induction n as [|n IH]; intros id H; [lia|]. cbn [rprod]. rewrite Nat.sub_succ, Nat.sub_0_r. destruct (Nat.eq_dec id n) as [->|E].
  - rewrite Rmult_comm. f_equal. apply rprod_ext. intros i Hi. unfold skip. destruct (Nat.ltb_spec i n); [reflexivity|lia].
  - rewrite (IH id) by lia. destruct n as [|n]; [lia|]. rewrite Nat.sub_succ, Nat.sub_0_r. cbn [rprod]. unfold skip at 3. destruct (Nat.ltb_spec n id); [lia|]. ring.
Qed.
Lemma weight_row nd rs w id f j : (0 < rs)%nat -> (id < nd)%nat -> (f < rs ^ (nd - 1))%nat -> (j < rs)%nat ->
  outer_power rs w nd (i_qpoint (nth_row nd rs id f) j) = w j * outer_power rs w (nd - 1) f.
Proof.
  intros R I F J. destruct (row_in_row nd rs id f j R I F J) as ((_ & D & E) & _). unfold outer_power. rewrite (rprod_split nd id) by exact I. rewrite D. f_equal.
  apply rprod_ext. intros k K. f_equal. rewrite E; [|unfold skip; destruct (k <? id)%nat; lia|unfold skip; destruct (Nat.ltb_spec k id); lia].
  f_equal. unfold skip, drop. destruct (Nat.ltb_spec k id) as [L|L]; [destruct (Nat.ltb_spec k id); lia|]. destruct (Nat.ltb_spec (S k) id); lia.
Qed.

(** ** integrals after writing a row *)
Lemma quad_ext n rs w a b v : (forall q, (q < rs ^ n)%nat -> a (v * rs ^ n + q)%nat = b (v * rs ^ n + q)%nat) -> quad n rs w a v = quad n rs w b v.
Proof. intros H. apply rsum_ext. intros q Q. now rewrite H. Qed.
Lemma quad_put_row nd rs wt id f n_var w data coef v : (0 < rs)%nat -> (id < nd)%nat -> (f < rs ^ (nd - 1))%nat -> (v < n_var)%nat ->
  quad nd rs wt (put_row n_var rs w data (nth_row nd rs id f) coef) v =
  quad nd rs wt data v + outer_power rs wt (nd - 1) f * rsum rs (fun j => wt j * ((coef - 1) * data (v * rs ^ nd + i_qpoint (nth_row nd rs id f) j)%nat + w j v)).
Proof.
  intros R I F V. set (ind := nth_row nd rs id f). set (new := put_row n_var rs w data ind coef).
  assert (E : rsum (rs ^ nd) (fun q => outer_power rs wt nd q * (new (v * rs ^ nd + q)%nat - data (v * rs ^ nd + q)%nat)) = outer_power rs wt (nd - 1) f * rsum rs (fun j => wt j * ((coef - 1) * data (v * rs ^ nd + i_qpoint ind j)%nat + w j v))).
  - rewrite (rsum_image _ rs (i_qpoint ind)).
    + rewrite <- rsum_scal. apply rsum_ext. intros j J. unfold ind at 1. rewrite weight_row by assumption. unfold new, ind. rewrite put_row_in by assumption. ring.
    + intros; now apply qp_lt.
    + intros a b A B Q. now apply (qpoint_inj nd rs id f a f b).
    + intros q Q H. unfold new, ind. rewrite (put_row_out nd rs id f R I F); [ring|]. intros v' j V' J Q'. apply flat_inj in Q'; [apply (H j J); tauto|now apply qp_lt|exact Q].
  - unfold quad. rewrite <- E, <- rsum_plus. apply rsum_ext. intros. ring.
Qed.
Lemma quad_put_row_other nd rs wt id f n_var w data coef v : (0 < rs)%nat -> (id < nd)%nat -> (f < rs ^ (nd - 1))%nat -> (n_var <= v)%nat ->
  quad nd rs wt (put_row n_var rs w data (nth_row nd rs id f) coef) v = quad nd rs wt data v.
Proof. intros R I F V. apply quad_ext. intros q Q. apply (put_row_out nd rs id f R I F). intros v' j V' J E. apply flat_inj in E; [lia|now apply qp_lt|exact Q]. Qed.

(** ** the modal filter keeps integrals *)
Lemma quad_filter_rows nd rs wt b n_var data v : (0 < rs)%nat -> (0 < nd)%nat ->
  (forall r, rsum rs (fun i => wt i * mat_vec rs (b_filter b) r i) = rsum rs (fun i => wt i * r i)) ->
  quad nd rs wt (apply_filter nd rs n_var b data) v = quad nd rs wt data v.
Proof.
  intros R N H. unfold apply_filter. apply (loop_inv (fun _ a => quad nd rs wt a v = quad nd rs wt data v)); [reflexivity|].
  intros id a I <-. rewrite for_rows_eq by assumption. apply (loop_inv (fun _ a' => quad nd rs wt a' v = quad nd rs wt a v)); [reflexivity|].
  intros f a' F E. destruct (Nat.lt_ge_cases v n_var) as [V|V]; [|now rewrite quad_put_row_other].
  rewrite quad_put_row by assumption. rewrite E. unfold mat_mul.
  rewrite (rsum_ext rs _ (fun j => wt j * mat_vec rs (b_filter b) (fun j => get_row a' (nth_row nd rs id f) j v) j - wt j * get_row a' (nth_row nd rs id f) j v)) by (intros; unfold get_row; rewrite ri_nq; ring).
  rewrite rsum_minus, H. ring.
Qed.

(** ** writing to faces *)
Section Bound.
Variables (nd rs id f : nat).
Hypotheses (R : (0 < rs)%nat) (I : (id < nd)%nat) (F : (f < rs ^ (nd - 1))%nat).
Let ind := nth_row nd rs id f.
Lemma put_bound_out n_var b faces i k : (forall v s, (v < n_var)%nat -> (s < 2)%nat -> i = (2 * id + s)%nat -> k <> (v * rs ^ (nd - 1) + f)%nat) -> put_bound n_var b faces ind i k = faces i k.
Proof.
  intros H. unfold put_bound. induction n_var as [|n IH]; [reflexivity|]. rewrite loop_S. rewrite !loop_S, loop_0.
  set (g := loop n _ faces) in *. assert (G : g i k = faces i k) by (apply IH; intros v s V S; apply (H v s); lia). rewrite <- G. clear IH.
  unfold ind. rewrite ri_nfq by lia. cbn [ri_i_dim i_face_qpoint i_fq nth_row].
  assert (Z : forall (h : nat -> arr) s x, (s < 2)%nat -> fput h (id * 2 + s) (put (h (id * 2 + s)%nat) (n * rs ^ (nd - 1) + f) x) i k = h i k).
  { intros h s x S. unfold fput. destruct (Nat.eqb_spec i (id * 2 + s)) as [->|]; [|reflexivity]. apply put_out. apply (H n s); lia. }
  rewrite Z, Z by lia. reflexivity.
Qed.
Lemma put_bound_in n_var b faces v s : (v < n_var)%nat -> (s < 2)%nat -> put_bound n_var b faces ind (2 * id + s)%nat (v * rs ^ (nd - 1) + f)%nat = b s v.
Proof.
  intros V S. unfold put_bound. induction n_var as [|n IH]; [lia|]. rewrite loop_S, !loop_S, loop_0.
  set (g := loop n _ faces) in *. unfold ind. rewrite ri_nfq by lia. cbn [ri_i_dim i_face_qpoint i_fq nth_row].
  replace (id * 2 + 0)%nat with (2 * id + 0)%nat by lia. replace (id * 2 + 1)%nat with (2 * id + 1)%nat by lia.
  destruct (Nat.eq_dec v n) as [->|E].
  - destruct s as [|[|s]]; [| |lia].
    + rewrite fput_out by lia. rewrite fput_in, put_in. reflexivity.
    + rewrite fput_in, put_in. reflexivity.
  - assert (N : (v * rs ^ (nd - 1) + f <> n * rs ^ (nd - 1) + f)%nat) by (intros Q; apply flat_inj in Q; lia).
    assert (Z : forall (h : nat -> arr) s' x, fput h (2 * id + s') (put (h (2 * id + s')%nat) (n * rs ^ (nd - 1) + f) x) (2 * id + s) (v * rs ^ (nd - 1) + f)%nat = h (2 * id + s)%nat (v * rs ^ (nd - 1) + f)%nat).
    { intros h s' x. unfold fput. destruct (Nat.eqb_spec (2 * id + s) (2 * id + s')) as [->|]; [|reflexivity]. now apply put_out. }
    rewrite !Z. apply IH. lia.
Qed.
End Bound.
(** all faces of an element *)
Definition put_bounds (nd rs n_var : nat) (b : nat -> row_index -> nat -> nat -> R) (faces : nat -> arr) : nat -> arr :=
  loop nd (fun id => for_rows nd rs id (fun ind faces => put_bound n_var (b id ind) faces ind)) faces.
Lemma put_bounds_out nd rs n_var b faces i k : (0 < rs)%nat -> (0 < nd)%nat -> (2 * nd <= i \/ n_var * rs ^ (nd - 1) <= k)%nat -> put_bounds nd rs n_var b faces i k = faces i k.
Proof.
  intros R N H. unfold put_bounds. apply (loop_inv (fun _ g => g i k = faces i k)); [reflexivity|]. intros id g I <-. rewrite for_rows_eq by assumption.
  apply (loop_inv (fun _ h => h i k = g i k)); [reflexivity|]. intros f h F <-. apply put_bound_out; try assumption. intros v s V S E. destruct H; [lia|nia].
Qed.
Lemma put_bounds_in nd rs n_var b faces id s v f : (0 < rs)%nat -> (id < nd)%nat -> (s < 2)%nat -> (v < n_var)%nat -> (f < rs ^ (nd - 1))%nat ->
  put_bounds nd rs n_var b faces (2 * id + s)%nat (v * rs ^ (nd - 1) + f)%nat = b id (nth_row nd rs id f) s v.
Proof.
  intros R I S V F. unfold put_bounds. set (k := (v * rs ^ (nd - 1) + f)%nat).
  enough (H : forall m, (m <= nd)%nat -> (id < m)%nat -> loop m (fun id => for_rows nd rs id (fun ind faces => put_bound n_var (b id ind) faces ind)) faces (2 * id + s)%nat k = b id (nth_row nd rs id f) s v) by (apply H; lia).
  induction m as [|m IH]; intros M L; [lia|]. rewrite loop_S. set (g := loop m _ faces) in *. rewrite for_rows_eq by lia. destruct (Nat.eq_dec id m) as [->|E].
  - enough (H : forall p, (p <= rs ^ (nd - 1))%nat -> (f < p)%nat -> loop p (fun f => (fun ind faces => put_bound n_var (b m ind) faces ind) (nth_row nd rs m f)) g (2 * m + s)%nat k = b m (nth_row nd rs m f) s v) by (apply H; lia).
    induction p as [|p IHp]; intros P FP; [lia|]. rewrite loop_S. cbn beta. destruct (Nat.eq_dec f p) as [->|E].
    + unfold k. apply put_bound_in; lia.
    + rewrite put_bound_out; try lia; [apply IHp; lia|]. intros v' s' V' S' _ Q. unfold k in Q. apply flat_inj in Q; lia.
  - rewrite <- (IH ltac:(lia) ltac:(lia)). apply (loop_inv (fun _ h => h (2 * id + s)%nat k = g (2 * id + s)%nat k)); [reflexivity|]. intros p h P <-. apply put_bound_out; try lia.
Qed.

(** ** [Local]: totals of the time rate *)
Lemma loop_pair {A B} n (g : nat -> A -> A) (h : nat -> B -> B) a b : loop n (fun i '(a, b) => (g i a, h i b)) (a, b) = (loop n g a, loop n h b).
Proof. induction n as [|n IH]; [reflexivity|]. rewrite !loop_S, IH. reflexivity. Qed.
Lemma fold_pair {X A B} (l : list X) (g : X -> A -> A) (h : X -> B -> B) a b : fold_left (fun s x => (fun '(a, b) => (g x a, h x b)) s) l (a, b) = (fold_left (fun a x => g x a) l a, fold_left (fun b x => h x b) l b).
Proof. revert a b; induction l as [|x l IH]; intros; cbn; auto. Qed.
Lemma quad_offset nd rs wt M g a v : (0 < rs)%nat -> quad nd rs wt (at_offset (M * rs ^ nd) g a) (M + v) = quad nd rs wt (g (fun i => a (M * rs ^ nd + i)%nat)) v.
Proof.
  intros R. unfold quad. apply rsum_ext. intros q Q. f_equal. unfold at_offset. destruct (Nat.ltb_spec ((M + v) * rs ^ nd + q) (M * rs ^ nd)); [nia|]. f_equal. nia.
Qed.
Lemma quad_offset_below nd rs wt M g a v : (v < M)%nat -> quad nd rs wt (at_offset (M * rs ^ nd) g a) v = quad nd rs wt a v.
Proof.
  intros H. apply quad_ext. intros q Q. unfold at_offset. destruct (Nat.ltb_spec (v * rs ^ nd + q) (M * rs ^ nd)); [reflexivity|nia].
Qed.
Lemma quad_offset_same nd rs wt M a v : (0 < rs)%nat -> quad nd rs wt (fun i => a (M * rs ^ nd + i)%nat) v = quad nd rs wt a (M + v).
Proof. intros R. unfold quad. apply rsum_ext. intros q Q. f_equal. f_equal. nia. Qed.

Definition conv_rate (nd rs : nat) (eq : pde) (b : basis) (flux : nat -> arr) faces id (ind : row_index) (rate : arr) : arr :=
  if has_convection eq then put_row (n_update eq) rs (fun i v => - d_both rs b (get_row (flux id) ind) (get_bound faces ind) i v) rate ind 1 else rate.
Definition diff_rate (nd rs : nat) (eq : pde) (b : basis) (visc_flux : nat -> arr) id (ind : row_index) (rate : arr) : arr :=
  if has_diffusion eq then at_offset (rate_vars eq * rs ^ nd) (fun r => put_row (n_update eq) rs (fun i v => - d_interior rs b (get_row (visc_flux id) ind) i v) r ind 1) rate else rate.
Definition ends (rs : nat) (b : basis) (visc_flux : nat -> arr) (id : nat) (ind : row_index) : nat -> nat -> R := mat_mul rs (b_boundary b) (get_row (visc_flux id) ind).
Lemma local_residual_eq nd rs eq b flux visc_flux faces rate visc_faces : (0 < rs)%nat -> (0 < nd)%nat ->
  local_residual nd rs eq b flux visc_flux faces (rate, visc_faces) =
  (loop nd (fun id => for_rows nd rs id (fun ind rate => diff_rate nd rs eq b visc_flux id ind (conv_rate nd rs eq b flux faces id ind rate))) rate,
   if has_diffusion eq then put_bounds nd rs (n_update eq) (ends rs b visc_flux) visc_faces else visc_faces).
Proof.
  intros R N. unfold local_residual.
  transitivity (loop nd (fun id '(r, vf) => (for_rows nd rs id (fun ind r => diff_rate nd rs eq b visc_flux id ind (conv_rate nd rs eq b flux faces id ind r)) r,
    for_rows nd rs id (fun ind vf => if has_diffusion eq then put_bound (n_update eq) (ends rs b visc_flux id ind) vf ind else vf) vf)) (rate, visc_faces)).
  - apply loop_ext. intros id [r vf] I. unfold for_rows. rewrite <- fold_pair. f_equal. apply functional_extensionality; intros [r' vf']. apply functional_extensionality; intros ind.
    unfold diff_rate, conv_rate. destruct (has_diffusion eq); reflexivity.
  - rewrite loop_pair. f_equal. unfold put_bounds. destruct (has_diffusion eq); [reflexivity|]. clear. induction nd as [|n IH] at 1; [reflexivity|]. rewrite loop_S, IH. unfold for_rows. generalize (rows_of nd rs n). intros l; induction l; cbn; auto.
Qed.

Definition flux_out nd rs wt (faces : nat -> arr) v : R := rsum nd (fun d => quad (nd - 1) rs wt (faces (2 * d + 1)%nat) v - quad (nd - 1) rs wt (faces (2 * d)%nat) v).
Lemma quad_diff n rs wt a b v : quad n rs wt a v - quad n rs wt b v = rsum (rs ^ n) (fun f => outer_power rs wt n f * (a (v * rs ^ n + f)%nat - b (v * rs ^ n + f)%nat)).
Proof. unfold quad. rewrite <- rsum_minus. apply rsum_ext. intros. ring. Qed.
Lemma residual_totals nd rs eq b flux visc_flux faces rate visc_faces : (0 < rs)%nat -> (0 < nd)%nat -> by_parts rs (b_diff b) (b_boundary b) (b_weight b) ->
  let s := local_residual nd rs eq b flux visc_flux faces (rate, visc_faces) in
  forall v, (v < n_update eq)%nat ->
  quad nd rs (b_weight b) (fst s) v = quad nd rs (b_weight b) rate v - (if has_convection eq then flux_out nd rs (b_weight b) faces v else 0) /\
  quad nd rs (b_weight b) (fst s) (rate_vars eq + v) = quad nd rs (b_weight b) rate (rate_vars eq + v) - (if has_diffusion eq then flux_out nd rs (b_weight b) (snd s) v else 0).
Proof.
  intros R N BP s v V. unfold s. rewrite local_residual_eq by assumption. cbn [fst snd]. set (wt := b_weight b) in *.
  assert (M : (n_update eq <= rate_vars eq)%nat) by (unfold rate_vars; lia).
  set (g := fun id f => if has_convection eq then outer_power rs wt (nd - 1) f * (faces (2 * id + 1)%nat (v * rs ^ (nd - 1) + f)%nat - faces (2 * id)%nat (v * rs ^ (nd - 1) + f)%nat) else 0).
  set (h := fun id f => if has_diffusion eq then outer_power rs wt (nd - 1) f * (ends rs b visc_flux id (nth_row nd rs id f) 1%nat v - ends rs b visc_flux id (nth_row nd rs id f) 0%nat v) else 0).
  set (body := fun id ind rate => diff_rate nd rs eq b visc_flux id ind (conv_rate nd rs eq b flux faces id ind rate)).
  assert (ST : forall id f a, (id < nd)%nat -> (f < rs ^ (nd - 1))%nat ->
    quad nd rs wt (body id (nth_row nd rs id f) a) v = quad nd rs wt a v - g id f /\ quad nd rs wt (body id (nth_row nd rs id f) a) (rate_vars eq + v) = quad nd rs wt a (rate_vars eq + v) - h id f).
  { intros id f a I F. unfold body. set (c := conv_rate nd rs eq b flux faces id (nth_row nd rs id f) a).
    assert (C : quad nd rs wt c v = quad nd rs wt a v - g id f /\ quad nd rs wt c (rate_vars eq + v) = quad nd rs wt a (rate_vars eq + v)).
    { unfold c, conv_rate, g. destruct (has_convection eq); [|split; lra]. split; [|apply quad_put_row_other; try assumption; lia].
      rewrite quad_put_row by assumption. unfold d_both.
      rewrite (rsum_ext rs _ (fun j => - (wt j * derivative rs (b_diff b) (b_boundary b) (b_weight b) (fun j => get_row (flux id) (nth_row nd rs id f) j v) (fun s => get_bound faces (nth_row nd rs id f) s v) j))) by (intros; unfold wt; ring).
      rewrite rsum_opp. match goal with |- context [derivative rs _ _ _ ?q ?e _] => pose proof (derivative_total rs _ _ _ q e BP) as DT end. fold wt in DT |- *. rewrite DT. unfold get_bound. rewrite ri_nfq by assumption. cbn [ri_i_dim i_face_qpoint i_fq nth_row].
      replace (id * 2 + 1)%nat with (2 * id + 1)%nat by lia. replace (id * 2 + 0)%nat with (2 * id)%nat by lia. ring. }
    destruct C as [C1 C2]. unfold diff_rate, h. destruct (has_diffusion eq); [|split; lra]. rewrite quad_offset_below by lia. split; [exact C1|].
    rewrite quad_offset by assumption. rewrite quad_put_row by assumption. rewrite quad_offset_same, C2 by assumption. unfold d_interior, derivative_interior.
    rewrite (rsum_ext rs _ (fun j => - (wt j * mat_vec rs (b_diff b) (fun j => get_row (visc_flux id) (nth_row nd rs id f) j v) j))) by (intros; ring).
    rewrite rsum_opp. match goal with |- context [mat_vec rs (b_diff b) ?q _] => pose proof (diff_total rs _ _ _ q BP) as DT end. fold wt in DT |- *. rewrite DT. unfold ends, mat_mul. ring. }
  assert (T : quad nd rs wt (loop nd (fun id => for_rows nd rs id (body id)) rate) v = quad nd rs wt rate v - rsum nd (fun id => rsum (rs ^ (nd - 1)) (g id)) /\
    quad nd rs wt (loop nd (fun id => for_rows nd rs id (body id)) rate) (rate_vars eq + v) = quad nd rs wt rate (rate_vars eq + v) - rsum nd (fun id => rsum (rs ^ (nd - 1)) (h id))).
  { apply (loop_inv (fun n a => quad nd rs wt a v = quad nd rs wt rate v - rsum n (fun id => rsum (rs ^ (nd - 1)) (g id)) /\ quad nd rs wt a (rate_vars eq + v) = quad nd rs wt rate (rate_vars eq + v) - rsum n (fun id => rsum (rs ^ (nd - 1)) (h id)))); [cbn; split; ring|].
    intros id a I [E1 E2]. rewrite for_rows_eq by assumption. cbn [rsum].
    assert (T : quad nd rs wt (loop (rs ^ (nd - 1)) (fun f => body id (nth_row nd rs id f)) a) v = quad nd rs wt a v - rsum (rs ^ (nd - 1)) (g id) /\ quad nd rs wt (loop (rs ^ (nd - 1)) (fun f => body id (nth_row nd rs id f)) a) (rate_vars eq + v) = quad nd rs wt a (rate_vars eq + v) - rsum (rs ^ (nd - 1)) (h id)); [|lra].
    apply (loop_inv (fun n c => quad nd rs wt c v = quad nd rs wt a v - rsum n (g id) /\ quad nd rs wt c (rate_vars eq + v) = quad nd rs wt a (rate_vars eq + v) - rsum n (h id))); [cbn; split; ring|].
    intros f c F [F1 F2]. destruct (ST id f c I F) as [S1 S2]. cbn [rsum]. lra. }
  destruct T as [T1 T2]. unfold body in T1, T2. rewrite T1, T2. split; f_equal.
  - unfold g, flux_out. destruct (has_convection eq); [|rewrite (rsum_ext nd _ (fun _ => 0)) by (intros; apply rsum_0); apply rsum_0]. apply rsum_ext. intros d D. symmetry. apply quad_diff.
  - unfold h, flux_out. destruct (has_diffusion eq); [|rewrite (rsum_ext nd _ (fun _ => 0)) by (intros; apply rsum_0); apply rsum_0]. apply rsum_ext. intros d D. rewrite quad_diff. apply rsum_ext. intros f F.
    replace (2 * d)%nat with (2 * d + 0)%nat at 2 by lia. rewrite !put_bounds_in by (assumption || lia). reflexivity.
Qed.
