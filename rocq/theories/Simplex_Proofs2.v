(** Proofs about the search tree of discrete surface geometry. *)
From Coq Require Import Reals List Arith ZArith Lia Lra Psatz Permutation Bool.
Import ListNotations.
From Verif Require Import RSum GeomPred_Model GeomPred_Spec GeomPred_Proofs Simplex_Model Simplex_Spec Simplex_Proofs.
Local Open Scope R_scope.

(** ** Trees *)
Section tree_induction.
  Context (P : tree -> Prop) (H : forall c misc children, Forall P children -> P (Node c misc children)).
  Fixpoint tree_rect' (t : tree) : P t :=
    match t with Node c misc children => H c misc children ((fix go l : Forall P l := match l with [] => Forall_nil _ | k :: l => Forall_cons _ (tree_rect' k) (go l) end) children) end.
End tree_induction.
Fixpoint sims_of (t : tree) : list simplex := match t with Node _ misc children => misc ++ flat_map sims_of children end.
Definition node_cube (t : tree) : cube := match t with Node c _ _ => c end.
Definition within (n : nat) (c : cube) (s : simplex) : Prop := forall v i, (v < n)%nat -> (i < n)%nat -> origin c i <= s v i <= origin c i + side c.
Inductive good (n : nat) : tree -> Prop :=
| good_node c misc children : Forall (within n c) (misc ++ flat_map sims_of children) -> Forall (good n) children -> good n (Node c misc children).

Lemma cube_dist n c p : (forall i, (i < n)%nat -> origin c i <= p i <= origin c i + side c) -> dist2 n p (cube_center c) <= INR n * (side c * side c / 4).
Proof.
  intros W. rewrite <- rsum_const. apply rsum_le. intros i I. specialize (W i I). unfold cube_center. set (x := p i) in *. set (o := origin c i) in *. clearbody x o. set (d := side c) in *. clearbody d.
  assert (0 <= (x - o) * (o + d - x)) by (apply Rmult_le_pos; lra). nra.
Qed.
Lemma within_hull n c s p : (0 < n)%nat -> within n c s -> in_hull n n s p -> 0 <= side c /\ dist2 n p (cube_center c) <= INR n * (side c * side c / 4).
Proof.
  intros N W H. split.
  - destruct (W 0%nat 0%nat ltac:(lia) ltac:(lia)). lra.
  - eapply hull_dist; [exact H|]. intros j J. apply cube_dist. intros i I. now apply W.
Qed.
Lemma cube_radius n d : 0 <= d -> sqrt (INR n * (d * d / 4)) = d * sqrt (INR n) / 2.
Proof.
  intros D. replace (INR n * (d * d / 4)) with ((d / 2 * (d / 2)) * INR n) by field. rewrite sqrt_mult; [|apply Rle_0_sqr|apply pos_INR].
  rewrite sqrt_square by lra. field.
Qed.
Lemma norm_dist n u v : norm n (fun i => u i - v i) = sqrt (dist2 n u v).
Proof. reflexivity. Qed.
Lemma sqrt_below l x : 0 <= l -> 0 <= x -> l < sqrt x -> l * l < x.
Proof. intros L X H. rewrite <- (sqrt_sqrt x X). apply Rmult_le_0_lt_compat; lra. Qed.

(** points of a ball that is farther than the limit are farther than the limit *)
Lemma far_ball n q p c r limit : 0 <= limit -> 0 <= r -> dist2 n p c <= r -> limit < sqrt (dist2 n q c) - sqrt r -> limit * limit < dist2 n q p.
Proof.
  intros L RP D F. apply sqrt_below; [exact L|apply dist2_nonneg|]. pose proof (triangle n q p c) as T. assert (sqrt (dist2 n p c) <= sqrt r) by (now apply sqrt_le_1_alt). lra.
Qed.

Lemma visit_ok n q limit a s : n = 2%nat \/ n = 3%nat -> 0 <= limit -> reference a = q -> dist_sq a <= limit * limit -> step_ok n q (in_hull n n s) a (visit n q limit a s).
Proof.
  intros N L R D. unfold visit. destruct (rle _ limit) eqn:C; [now apply merge_simplex_ok|]. apply step_skip; [exact R|]. intros p P.
  destruct (bounding_ball_main n n s ltac:(lia)) as (B & _ & (j & J & E)). specialize (B p P). apply rle_false in C. rewrite norm_dist, dist2_sym in C.
  assert (0 <= radius_sq (bounding_ball n n s)) by (rewrite <- E; apply dist2_nonneg).
  pose proof (far_ball n q p _ _ limit L H B C). lra.
Qed.
Lemma fold_ok {A} n q limit (f : near -> A -> near) (P : A -> point -> Prop) (l : list A) :
  (forall x a, In x l -> reference a = q -> dist_sq a <= limit * limit -> step_ok n q (P x) a (f a x)) ->
  forall a, reference a = q -> dist_sq a <= limit * limit -> step_ok n q (fun p => exists x, In x l /\ P x p) a (fold_left f l a).
Proof.
  induction l as [|x l IH]; intros H a R D; cbn [fold_left].
  - apply step_skip; [exact R|]. intros p (x & [] & _).
  - pose proof (H x a (or_introl eq_refl) R D) as S0. assert (R' := proj1 S0). assert (D' := proj1 (proj2 S0)).
    assert (T := IH (fun y b Y => H y b (or_intror Y)) (f a x) R' ltac:(lra)). eapply step_grow; [exact (step_seq _ _ _ _ _ _ _ S0 T)| |].
    + intros p [K|(y & Y & K)]; [exists x; split; [now left|exact K]|exists y; split; [now right|exact K]].
    + intros p (y & [->|Y] & K); exists p; (split; [|lra]); [now left|right; now exists y].
Qed.

Lemma recursive_ok n q limit t : n = 2%nat \/ n = 3%nat -> 0 <= limit -> good n t ->
  forall a, reference a = q -> dist_sq a <= limit * limit -> step_ok n q (on_surface n (sims_of t)) a (recursive_nearest n q limit t a).
Proof.
  intros N L. induction t as [c misc children IH] using tree_rect'. intros G a R D. inversion G as [? ? ? W GC]; subst. cbn [recursive_nearest sims_of].
  destruct (rlt limit _) eqn:FAR.
  - apply rlt_true in FAR. apply step_skip; [reflexivity|]. intros p (s & S & P). rewrite Forall_forall in W.
    destruct (within_hull n c s p ltac:(lia) (W s S) P) as [SD PD]. rewrite norm_dist in FAR. rewrite <- cube_radius in FAR by exact SD.
    assert (0 <= INR n * (side c * side c / 4)) by (eapply Rle_trans; [apply dist2_nonneg|exact PD]).
    pose proof (far_ball n (reference a) p _ _ limit L H PD FAR). lra.
  - pose proof (fold_ok n (reference a) limit (visit n (reference a) limit) (fun s => in_hull n n s) misc (fun s b _ RB DB => visit_ok n (reference a) limit b s N L RB DB) a eq_refl D) as S1.
    set (b := fold_left (visit n (reference a) limit) misc a) in *. assert (RB := proj1 S1). assert (DB := proj1 (proj2 S1)).
    assert (S2 : step_ok n (reference a) (fun p => exists k, In k children /\ on_surface n (sims_of k) p) b (fold_left (fun x k => recursive_nearest n (reference a) limit k x) children b)).
    { apply (fold_ok n (reference a) limit (fun x k => recursive_nearest n (reference a) limit k x) (fun k => on_surface n (sims_of k))); [|exact RB|lra].
      intros k x K RX DX. rewrite Forall_forall in IH, GC. apply IH; auto. }
    eapply step_grow; [exact (step_seq _ _ _ _ _ _ _ S1 S2)| |].
    + intros p [(s & S & P)|(k & K & s & S & P)]; exists s; (split; [|exact P]); apply in_or_app; [now left|right]. apply in_flat_map. now exists k.
    + intros p (s & S & P). exists p. split; [|lra]. apply in_app_or in S. destruct S as [S|S]; [left; now exists s|]. apply in_flat_map in S. destruct S as (k & K & S). right. exists k. split; [exact K|]. now exists s.
Qed.

(** ** The distance guess *)
Definition search_result (n : nat) (sims : list simplex) (q : point) (max_distance : R) (r : near) : Prop :=
  reference r = q /\
  if empty r then forall p, on_surface n sims p -> max_distance * max_distance <= dist2 n q p
  else nearest_of n sims q (pnt r) /\ dist_sq r = dist2 n q (pnt r) /\ dist_sq r < max_distance * max_distance.

Lemma search n huge t q max_distance : n = 2%nat \/ n = 3%nat -> 0 <= max_distance -> good n t ->
  forall m guess fuel, 0 < guess -> max_distance <= guess * 2 ^ m -> (m < fuel)%nat ->
  exists r, nearest_point fuel n huge t q max_distance guess = Some (Some r) /\ search_result n (sims_of t) q max_distance r.
Proof.
  intros N MX G. induction m as [|m IH]; intros guess fuel GP E F; (destruct fuel as [|fuel]; [lia|]); cbn [nearest_point]; (rewrite (proj2 (rlt_true 0 guess)) by exact GP);
    set (limit := Rmin max_distance guess); set (r := recursive_nearest n q limit t (no_point q limit));
    (assert (LM : limit <= max_distance) by apply Rmin_l); (assert (L : 0 <= limit) by (unfold limit, Rmin; destruct (Rle_dec max_distance guess); lra));
    pose proof (recursive_ok n q limit t N L G (no_point q limit) eq_refl (Rle_refl _)) as (R & D & C & M); fold r in R, D, C, M; cbn [dist_sq no_point] in D, C.
  all: assert (NE : empty r = false -> search_result n (sims_of t) q max_distance (convert n huge r)).
  1, 3: intros NE; unfold convert; rewrite NE; (destruct C as [C|(_ & P & DD & LT)]; [rewrite C in NE; discriminate|]);
    split; [exact R|]; cbn [empty at_point pnt dist_sq]; rewrite R; (assert (DE : sqnorm n (fun i => pnt r i - q i) = dist2 n q (pnt r)) by (rewrite dist2_sym; reflexivity));
    rewrite DE; split; [split; [exact P|intros x X; rewrite <- DD; now apply M]|]; split; [reflexivity|]; rewrite <- DD; eapply Rlt_le_trans; [exact LT|]; apply Rmult_le_compat; lra.
  all: assert (EM : empty r = true -> guess >= max_distance -> search_result n (sims_of t) q max_distance (convert n huge r)).
  1, 3: intros EM GE; unfold convert; rewrite EM; split; [exact R|]; cbn [empty no_point]; intros p P; specialize (M p P);
    (destruct C as [C|(K & _)]; [|rewrite EM in K; discriminate]); rewrite C in M; cbn [dist_sq no_point] in M; (replace max_distance with limit by (unfold limit, Rmin; destruct (Rle_dec max_distance guess); lra)); exact M.
  - destruct (empty r) eqn:EE; cbn [andb]; [|eexists; split; [reflexivity|now apply NE]].
    cbn [pow] in E. rewrite (proj2 (rlt_false guess max_distance)) by lra. eexists. split; [reflexivity|]. apply EM; [reflexivity|lra].
  - destruct (empty r) eqn:EE; cbn [andb]; [|eexists; split; [reflexivity|now apply NE]].
    destruct (rlt guess max_distance) eqn:GL.
    + apply IH; [lra| |lia]. cbn [pow] in E. lra.
    + apply rlt_false in GL. eexists. split; [reflexivity|]. apply EM; [reflexivity|lra].
Qed.

(** ** Sorting *)
Lemma min_coeff_le k f j : (j <= k)%nat -> min_coeff k f <= f j.
Proof.
  induction k as [|k IH]; intros J; cbn [min_coeff]; [replace j with 0%nat by lia; lra|].
  destruct (Nat.eq_dec j (S k)) as [->|]; [apply Rmin_r|]. eapply Rle_trans; [apply Rmin_l|apply IH; lia].
Qed.
Lemma min_coeff_in k f : exists j, (j <= k)%nat /\ min_coeff k f = f j.
Proof.
  induction k as [|k (j & J & E)]; cbn [min_coeff]; [exists 0%nat; auto|].
  unfold Rmin. destruct (Rle_dec (min_coeff k f) (f (S k))); [exists j; split; [lia|exact E]|exists (S k); auto].
Qed.
Lemma fits_iff n c s : (0 < n)%nat -> fits n c s = true <-> forall v i, (v < n)%nat -> (i < n)%nat -> origin c i < s v i < origin c i + side c.
Proof.
  intros N. unfold fits. rewrite forallb_forall. split.
  - intros H v i V I. specialize (H v ltac:(apply in_seq; lia)). apply andb_true_iff in H. destruct H as [A B]. apply rlt_true in A, B.
    pose proof (min_coeff_le (n - 1) (fun i => s v i - origin c i) i ltac:(lia)). pose proof (max_coeff_ge (n - 1) (fun i => s v i - origin c i) i ltac:(lia)). cbn beta in *. lra.
  - intros H v V. apply in_seq in V. apply andb_true_iff. split; apply rlt_true.
    + destruct (min_coeff_in (n - 1) (fun i => s v i - origin c i)) as (j & J & ->). specialize (H v j ltac:(lia) ltac:(lia)). lra.
    + destruct (max_coeff_in (n - 1) (fun i => s v i - origin c i)) as (j & J & ->). specialize (H v j ltac:(lia) ltac:(lia)). lra.
Qed.
Lemma partition_perm {A} (f : A -> bool) l a b : partition f l = (a, b) -> Permutation (a ++ b) l /\ Forall (fun x => f x = true) a.
Proof.
  revert a b. induction l as [|x l IH]; intros a b; cbn; [intros [= <- <-]; split; constructor|]. destruct (partition f l) as [g d]. destruct (IH g d eq_refl) as [P F].
  destruct (f x) eqn:E; intros [= <- <-]; split; auto.
  - cbn. now constructor.
  - apply Permutation_sym. apply Permutation_cons_app. now apply Permutation_sym.
Qed.
Lemma distribute_perm n cs : forall rest l rest', distribute n cs rest = (l, rest') ->
  Permutation (rest' ++ flat_map snd l) rest /\ Forall (fun k => In (fst k) cs /\ Forall (fun s => fits n (fst k) s = true) (snd k)) l.
Proof.
  induction cs as [|c cs IH]; intros rest l rest'; cbn [distribute]; [intros [= <- <-]; split; [cbn; rewrite app_nil_r; apply Permutation_refl|constructor]|].
  destruct (partition (fits n c) rest) as [inside r] eqn:P. destruct (distribute n cs r) as [l0 r0] eqn:D. intros [= <- <-].
  destruct (partition_perm _ _ _ _ P) as [PP PF]. destruct (IH _ _ _ D) as [DP DF]. split.
  - cbn [flat_map snd]. eapply Permutation_trans; [|exact PP]. eapply Permutation_trans; [|apply Permutation_app_head; exact DP].
    rewrite !app_assoc. apply Permutation_app_tail. apply Permutation_app_comm.
  - constructor; [split; [now left|exact PF]|]. eapply Forall_impl; [|exact DF]. intros k [K1 K2]. split; [now right|exact K2].
Qed.
Lemma all_some_In {A B} (f : A -> option B) l r : all_some (map f l) = Some r -> Forall2 (fun a b => f a = Some b) l r.
Proof.
  revert r. induction l as [|a l IH]; intros r; cbn; [intros [= <-]; constructor|]. destruct (f a) as [b|] eqn:E; [|discriminate]. destruct (all_some (map f l)) as [r0|]; [|discriminate].
  intros [= <-]. constructor; [exact E|now apply IH].
Qed.

Lemma sort_ok n : (0 < n)%nat -> forall fuel c misc t, sort_simplices fuel n c misc = Some t -> Forall (within n c) misc ->
  good n t /\ Permutation (sims_of t) misc /\ node_cube t = c.
Proof.
  intros N. induction fuel as [|fuel IH]; intros c misc t; cbn [sort_simplices]; [discriminate|].
  destruct (distribute n (map (child n c) (seq 0 (2 ^ n))) misc) as [l remaining] eqn:D. destruct (distribute_perm _ _ _ _ _ D) as [P F]. clear D.
  set (f := fun k => if (100 <? length (snd k))%nat then sort_simplices fuel n (fst k) (snd k) else Some (Node (fst k) (snd k) [])).
  destruct (all_some (map f l)) as [children|] eqn:A; [|discriminate]. intros [= <-] W. apply all_some_In in A.
  assert (K : Permutation (flat_map sims_of children) (flat_map snd l) /\ Forall (good n) children).
  { clear P. induction A as [|k t l children E A IHA]; [split; constructor|]. inversion F as [|? ? [_ FK] FL]; subst. destruct (IHA FL) as [P1 G1].
    assert (WK : Forall (within n (fst k)) (snd k)). { eapply Forall_impl; [|exact FK]. intros s S v i V I. pose proof (proj1 (fits_iff n (fst k) s N) S v i V I). lra. }
    unfold f in E. destruct (100 <? length (snd k))%nat.
    - destruct (IH _ _ _ E WK) as (G & PK & _). split; [cbn; now apply Permutation_app|now constructor].
    - injection E as <-. split; [cbn; rewrite app_nil_r; now apply Permutation_app_head|]. constructor; [|exact G1]. constructor; [cbn; now rewrite app_nil_r|constructor]. }
  destruct K as [KP KG]. assert (PM : Permutation (remaining ++ flat_map sims_of children) misc). { eapply Permutation_trans; [apply Permutation_app_head; exact KP|exact P]. }
  split; [|split; [exact PM|reflexivity]]. constructor; [|exact KG]. eapply Permutation_Forall; [apply Permutation_sym; exact PM|exact W].
Qed.

(** the bounding box *)
Lemma fold_min (g : nat -> R) l : forall a : R, fold_left (fun a v => Rmin a (g v)) l a <= a /\ forall v, In v l -> fold_left (fun a v => Rmin a (g v)) l a <= g v.
Proof.
  induction l as [|v l IH]; intros a; cbn [fold_left]; [split; [lra|intros v []]|]. destruct (IH (Rmin a (g v))) as [A B]. pose proof (Rmin_l a (g v)). pose proof (Rmin_r a (g v)).
  split; [lra|]. intros w [<-|W]; [lra|now apply B].
Qed.
Lemma fold_max (g : nat -> R) l : forall a : R, a <= fold_left (fun a v => Rmax a (g v)) l a /\ forall v, In v l -> g v <= fold_left (fun a v => Rmax a (g v)) l a.
Proof.
  induction l as [|v l IH]; intros a; cbn [fold_left]; [split; [lra|intros v []]|]. destruct (IH (Rmax a (g v))) as [A B]. pose proof (Rmax_l a (g v)). pose proof (Rmax_r a (g v)).
  split; [lra|]. intros w [<-|W]; [lra|now apply B].
Qed.
Lemma box_min_le n (sims : list simplex) i : forall a : R, let b := fold_left (fun a s => fold_left (fun a v => Rmin a (s v i)) (seq 0 n) a) sims a in b <= a /\ forall s v, In s sims -> (v < n)%nat -> b <= s v i.
Proof.
  induction sims as [|s sims IH]; intros a; cbn [fold_left]; [split; [lra|intros s v []]|]. cbn zeta. destruct (IH (fold_left (fun a v => Rmin a (s v i)) (seq 0 n) a)) as [A B].
  destruct (fold_min (fun v => s v i) (seq 0 n) a) as [C D]. split; [lra|]. intros s' v [<-|S] V; [|now apply B]. eapply Rle_trans; [exact A|]. apply D. apply in_seq. lia.
Qed.
Lemma box_max_ge n (sims : list simplex) i : forall a : R, let b := fold_left (fun a s => fold_left (fun a v => Rmax a (s v i)) (seq 0 n) a) sims a in a <= b /\ forall s v, In s sims -> (v < n)%nat -> s v i <= b.
Proof.
  induction sims as [|s sims IH]; intros a; cbn [fold_left]; [split; [lra|intros s v []]|]. cbn zeta. destruct (IH (fold_left (fun a v => Rmax a (s v i)) (seq 0 n) a)) as [A B].
  destruct (fold_max (fun v => s v i) (seq 0 n) a) as [C D]. split; [lra|]. intros s' v [<-|S] V; [|now apply B]. eapply Rle_trans; [|exact A]. apply (D v). apply in_seq. lia.
Qed.
Lemma root_within n huge sims : Forall (within n (root_cube n huge sims)) sims.
Proof.
  apply Forall_forall. intros s S v i V I. cbn [origin side root_cube]. pose proof (proj2 (box_min_le n sims i huge) s v S V) as A. pose proof (proj2 (box_max_ge n sims i (- huge)) s v S V) as B.
  pose proof (max_coeff_ge (n - 1) (fun i => box_max n huge sims i - box_min n huge sims i) i ltac:(lia)) as C. cbn beta in C. unfold box_min, box_max in *. cbn zeta in A, B. lra.
Qed.
Lemma construct_ok fuel n huge sims t : (0 < n)%nat -> construct fuel n huge sims = Some t -> good n t /\ Permutation (sims_of t) sims /\ node_cube t = root_cube n huge sims.
Proof. intros N E. apply (sort_ok n N fuel _ _ _ E). apply root_within. Qed.
Lemma on_surface_perm n l l' p : Permutation l l' -> on_surface n l p -> on_surface n l' p.
Proof. intros P (s & S & H). exists s. split; [now apply (Permutation_in s P)|exact H]. Qed.

(** sorting ends *)
Definition extent_at_least (n : nat) (d : R) (s : simplex) : Prop := exists v w i, (v < n)%nat /\ (w < n)%nat /\ (i < n)%nat /\ d <= s v i - s w i.
Lemma extents n (sims : list simplex) : Forall (extended n) sims -> exists d, 0 < d /\ Forall (extent_at_least n d) sims.
Proof.
  induction 1 as [|s sims (v & w & i & V & W & I & E) _ (d & D & F)]; [exists 1; split; [lra|constructor]|].
  exists (Rmin d (Rabs (s v i - s w i))). split.
  - apply Rmin_glb_lt; [exact D|]. apply Rabs_pos_lt. lra.
  - constructor.
    + destruct (Rle_dec (s v i) (s w i)); [exists w, v, i|exists v, w, i]; (split; [assumption|]; split; [assumption|]; split; [exact I|]); (eapply Rle_trans; [apply Rmin_r|]).
      * rewrite Rabs_left1 by lra. lra.
      * rewrite Rabs_right by lra. lra.
    + eapply Forall_impl; [|exact F]. intros s' (v' & w' & i' & V' & W' & I' & E'). exists v', w', i'. repeat split; auto. eapply Rle_trans; [apply Rmin_l|exact E'].
Qed.
Lemma all_some_total {A B} (f : A -> option B) l : (forall a, In a l -> exists b, f a = Some b) -> exists r, all_some (map f l) = Some r.
Proof.
  induction l as [|a l IH]; intros H; [now exists []|]. destruct (H a (or_introl eq_refl)) as (b & E). destruct IH as (r & R); [intros x X; apply H; now right|]. exists (b :: r). cbn. now rewrite E, R.
Qed.
Lemma sort_total n d : (0 < n)%nat -> 0 < d -> forall m c misc fuel, side c < d * 2 ^ S m -> (m < fuel)%nat -> Forall (extent_at_least n d) misc -> exists t, sort_simplices fuel n c misc = Some t.
Proof.
  intros N D. induction m as [|m IH]; intros c misc fuel SD F X; (destruct fuel as [|fuel]; [lia|]); cbn [sort_simplices];
    destruct (distribute n (map (child n c) (seq 0 (2 ^ n))) misc) as [l remaining] eqn:E; destruct (distribute_perm _ _ _ _ _ E) as [P FT]; clear E.
  all: match goal with |- exists t, option_map _ (all_some (map ?f ?l)) = Some t => destruct (all_some_total f l) as (r & R); [|rewrite R; eexists; reflexivity] end.
  all: intros k K; rewrite Forall_forall in FT; destruct (FT k K) as [KC KF]; apply in_map_iff in KC; destruct KC as (j & KC & _).
  all: assert (KX : Forall (extent_at_least n d) (snd k)) by (apply Forall_forall; intros s S; rewrite Forall_forall in X; apply X; apply (Permutation_in s P); apply in_or_app; right; apply in_flat_map; now exists k).
  all: assert (SK : side (fst k) = side c / 2) by (rewrite <- KC; reflexivity).
  - assert (snd k = []) as ->; [|cbn; now eexists]. destruct (snd k) as [|s sims]; [reflexivity|]. exfalso. inversion KF as [|? ? FS _]; subst. inversion KX as [|? ? (v & w & i & V & W & I & EX) _]; subst.
    pose proof (proj1 (fits_iff n _ s N) FS v i V I). pose proof (proj1 (fits_iff n _ s N) FS w i W I). cbn [pow] in SD. lra.
  - destruct (100 <? length (snd k))%nat; [|now eexists]. apply IH; [|lia|exact KX]. rewrite SK. cbn [pow] in *. lra.
Qed.
Lemma partition_length_le {A} (f : A -> bool) l a b : partition f l = (a, b) -> (length a <= length l /\ length b <= length l)%nat.
Proof. intros E. pose proof (partition_length f l E). lia. Qed.
Lemma pow_exceeds x : exists m, x < 2 ^ m.
Proof.
  destruct (archimed x) as [A _]. exists (Z.to_nat (up x)). eapply Rlt_le_trans; [exact A|]. destruct (Z_le_gt_dec 0 (up x)) as [P|NP].
  - rewrite <- (Z2Nat.id (up x)) at 1 by exact P. rewrite <- INR_IZR_INZ. generalize (Z.to_nat (up x)). induction n as [|n IH]; [cbn; lra|]. rewrite S_INR. cbn [pow].
    assert (1 <= 2 ^ n) by (apply pow_R1_Rle; lra). lra.
  - apply Rle_trans with 1; [apply (IZR_le _ 1); lia|apply pow_R1_Rle; lra].
Qed.
Lemma construct_total n huge (sims : list simplex) : (0 < n)%nat -> (length sims <= 100)%nat \/ Forall (extended n) sims -> exists fuel0, forall fuel, (fuel0 <= fuel)%nat -> exists t, construct fuel n huge sims = Some t.
Proof.
  intros N [S|X].
  - exists 1%nat. intros [|fuel] F; [lia|]. unfold construct. cbn [sort_simplices].
    destruct (distribute n (map (child n (root_cube n huge sims)) (seq 0 (2 ^ n))) sims) as [l remaining] eqn:E. destruct (distribute_perm _ _ _ _ _ E) as [P _].
    match goal with |- exists t, option_map _ (all_some (map ?f ?l)) = Some t => destruct (all_some_total f l) as (r & R); [|rewrite R; eexists; reflexivity] end.
    intros k K. assert (L : (length (snd k) <= 100)%nat).
    { apply Permutation_length in P. rewrite app_length in P. assert (length (snd k) <= length (flat_map snd l))%nat; [|lia]. clear - K. induction l as [|k0 l IH]; [contradiction|].
      cbn [flat_map]. rewrite app_length. destruct K as [<-|K]; [lia|]. specialize (IH K). lia. }
    destruct (Nat.ltb_spec 100 (length (snd k))); [lia|]. now eexists.
  - destruct (extents n sims X) as (d & D & F). destruct (pow_exceeds (side (root_cube n huge sims) / d)) as (m & M). exists (S m). intros fuel FU.
    apply (sort_total n d N D m); [|lia|exact F]. cbn [pow].
    assert (side (root_cube n huge sims) < d * 2 ^ m). { apply Rmult_lt_reg_r with (/ d); [now apply Rinv_0_lt_compat|]. unfold Rdiv in M. replace (d * 2 ^ m * / d) with (2 ^ m) by (field; lra). exact M. }
    assert (0 < 2 ^ m) by (apply pow_lt; lra). assert (0 < d * 2 ^ m) by (now apply Rmult_lt_0_compat). lra.
Qed.

Lemma nearest_main n huge (sims : list simplex) q max_distance guess : n = 2%nat \/ n = 3%nat -> (length sims <= 100)%nat \/ Forall (extended n) sims -> 0 <= max_distance -> 0 < guess ->
  exists fuel0, forall fuel fuel', (fuel0 <= fuel)%nat -> (fuel0 <= fuel')%nat -> exists t r, construct fuel n huge sims = Some t /\ nearest_point fuel' n huge t q max_distance guess = Some (Some r) /\
    search_result n sims q max_distance r.
Proof.
  intros N X MX G. destruct (construct_total n huge sims ltac:(lia) X) as (f0 & F0). destruct (pow_exceeds (max_distance / guess)) as (m & M). exists (f0 + S m)%nat. intros fuel fuel' L L'.
  destruct (F0 fuel ltac:(lia)) as (t & T). destruct (construct_ok fuel n huge sims t ltac:(lia) T) as (GT & P & _).
  assert (B : max_distance <= guess * 2 ^ m). { apply Rmult_le_reg_r with (/ guess); [now apply Rinv_0_lt_compat|]. replace (guess * 2 ^ m * / guess) with (2 ^ m) by (field; lra). unfold Rdiv in M. lra. }
  destruct (search n huge t q max_distance N MX GT m guess fuel' G B ltac:(lia)) as (r & R & (RR & S)). exists t, r. split; [exact T|]. split; [exact R|]. split; [exact RR|].
  destruct (empty r).
  - intros p K. apply S. apply (on_surface_perm n sims); [now apply Permutation_sym|exact K].
  - destruct S as ((K1 & K2) & DD). split; [|exact DD]. split; [now apply (on_surface_perm n _ _ _ P)|]. intros x K. apply K2. apply (on_surface_perm n sims); [now apply Permutation_sym|exact K].
Qed.
