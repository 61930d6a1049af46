(** Theorems on the sweeps of [snap_faces]. *)
From Coq Require Import Reals List Arith Lia Lra FunctionalExtensionality.
From Verif Require Import RSum Tensor_Spec Connection_Model Basis_Model Basis_Spec Quad_Spec Spatial_Model Spatial_Spec Sweep_Model Sweep_Spec Sweep_Proofs3 Sweep_Proofs4 Sweep_Proofs5 Sweep_Proofs6.
From Verif Require Import Snap_Spec.
Import ListNotations.
Local Open Scope R_scope.

(** The flow is as before, although the sweeps work in the storage of the state; and only the adjustments of the walls change. *)
Theorem sweep_keeps : forall (m : mesh) (bcs : list (nat * nat)) (walls : list wall) (hang : list con) (node : nat -> R) (lobs : nat -> nat -> R) (adj : nat -> arr) (x : data),
  tidy m bcs walls ->
  let r := sweeps m node lobs hang bcs walls adj x in
  (forall i k, d_state (snd r) i k = d_state x i k) /\
  (forall i k, (forall w f, In w walls -> i = w_elem w -> (f < m_row_size m ^ (m_dim m - 1))%nat -> k <> ((2 * w_dim w + w_sign w) * m_row_size m ^ (m_dim m - 1) + f)%nat) -> fst r i k = adj i k).
Proof. intros m bcs walls hang node lobs adj x T r. split; intros i k; [now apply (sweeps_states m bcs walls)|now apply (sweeps_elsewhere m bcs walls)]. Qed.
Print Assumptions sweep_keeps.

(** In the plane. Where two walls join, the sweep puts both at the average of their displacements, so that they meet; at the boundary and at
    the inner points of the rule they stay. *)
Theorem sweep_plane : forall (m : mesh) (bcs : list (nat * nat)) (walls : list wall) (hang : list con) (node wt : nat -> R) (ratio : R) (lobs : nat -> nat -> R) (adj : nat -> arr) (x : data),
  let n := Nat.max 2 (m_row_size m - 1) in
  m_dim m = 2%nat -> tidy m bcs walls -> m_basis m = basis_on (m_row_size m) node wt ratio -> distinct (m_row_size m) node -> lobatto n (lobs n) ->
  let before := moved 2 (m_row_size m) node adj in
  let after := moved 2 (m_row_size m) node (fst (sweeps m node lobs hang bcs walls adj x)) in
  (forall g h y z, is_edge 2 walls g -> is_edge 2 walls h -> linked m hang (edge_face m g) (edge_face m h) -> y (g_dim g) = INR (g_sign g) -> z (g_dim h) = INR (g_sign h) ->
     after (g_wall g) y = (before (g_wall g) y + before (g_wall h) z) / 2 /\ after (g_wall h) z = after (g_wall g) y) /\
  (forall g y, is_edge 2 walls g -> bounded m bcs hang g -> y (g_dim g) = INR (g_sign g) -> after (g_wall g) y = before (g_wall g) y) /\
  (forall w b l y, In w walls -> (b < 2)%nat -> b <> w_dim w -> (0 < l < n - 1)%nat -> y b = lobs n l -> after w y = before w y).
Proof.
  intros m bcs walls hang node wt ratio lobs adj x n P T B DI LO before after. unfold before, after, n in *. rewrite <- P. split; [|split].
  - intros g h y z G H L Y Z. destruct (plane_edge m bcs walls hang node wt ratio lobs T adj x B DI LO P g G y Y) as [_ E]. destruct (plane_edge m bcs walls hang node wt ratio lobs T adj x B DI LO P h H z Z) as [_ E'].
    rewrite (E h z H L Z). split; [reflexivity|]. rewrite (E' g y G); [field| |exact Y]. destruct L as (c & C & S & L). exists c. split; [exact C|]. split; [exact S|tauto].
  - intros g y G BO Y. now apply (plane_edge m bcs walls hang node wt ratio lobs T adj x B DI LO P g G y Y).
  - intros w b l y W BN NE L Y. rewrite P in BN, L, Y. apply (plane_inner m bcs walls hang node lobs T adj x DI LO P w b l y); try assumption. now rewrite P.
Qed.
Print Assumptions sweep_plane.

(** In the plane, walls that meet already stay as they are. *)
Theorem sweep_plane_stays : forall (m : mesh) (bcs : list (nat * nat)) (walls : list wall) (hang : list con) (node wt : nat -> R) (ratio : R) (lobs : nat -> nat -> R) (adj : nat -> arr) (x : data),
  let n := Nat.max 2 (m_row_size m - 1) in
  m_dim m = 2%nat -> tidy m bcs walls -> m_basis m = basis_on (m_row_size m) node wt ratio -> distinct (m_row_size m) node -> lobatto n (lobs n) ->
  (forall w, In w walls -> smooth 2 (m_row_size m) node n (lobs n) adj w) ->
  (forall g, is_edge 2 walls g -> bounded m bcs hang g \/ exists h, is_edge 2 walls h /\ linked m hang (edge_face m g) (edge_face m h) /\ joined g h /\ meet 2 (m_row_size m) node adj g h) ->
  fst (sweeps m node lobs hang bcs walls adj x) = adj.
Proof.
  intros m bcs walls hang node wt ratio lobs adj x n P T B DI LO SM E. rewrite <- P in SM, E. apply (sweeps_same m bcs walls hang node wt ratio lobs T adj x B DI LO SM).
  intros g G. destruct (E g G) as [BO|(h & H & L & J & M)]; [now left|right]. exists h. split; [exact H|]. split; [exact L|]. split; [exact J|]. split; [|exact M].
  destruct G as (_ & D & _), H as (_ & D' & _). rewrite P in D, D'. unfold straight. lia.
Qed.
Print Assumptions sweep_plane_stays.

(** In two or three dimensions. Full statement: walls whose edges join other walls, or the boundary, or hang on coarser ones, and that meet already
    stay as they are. Proved for edges that are not at a corner between the directions 0 and 2 and do not hang; for these it is false. *)
Theorem sweep_stays_partial : forall (m : mesh) (bcs : list (nat * nat)) (walls : list wall) (hang : list con) (node wt : nat -> R) (ratio : R) (lobs : nat -> nat -> R) (adj : nat -> arr) (x : data),
  let n := Nat.max 2 (m_row_size m - 1) in
  tidy m bcs walls -> m_basis m = basis_on (m_row_size m) node wt ratio -> distinct (m_row_size m) node -> lobatto n (lobs n) ->
  (forall w, In w walls -> smooth (m_dim m) (m_row_size m) node n (lobs n) adj w) ->
  (forall g, is_edge (m_dim m) walls g -> bounded m bcs hang g \/ exists h, is_edge (m_dim m) walls h /\ linked m hang (edge_face m g) (edge_face m h) /\ joined g h /\ straight g h /\ meet (m_dim m) (m_row_size m) node adj g h) ->
  fst (sweeps m node lobs hang bcs walls adj x) = adj.
Proof. intros m bcs walls hang node wt ratio lobs adj x n T B DI LO SM E. exact (sweeps_same m bcs walls hang node wt ratio lobs T adj x B DI LO SM E). Qed.
Print Assumptions sweep_stays_partial.

(** The kernel that averages is the one of Cartesian connections: at a corner between the directions 0 and 2 it takes the average of points that
    are not the same. For every row size and all nodes there are walls that meet and are changed. *)
Theorem sweep_corner_refuted : forall (rs : nat) (node wt : nat -> R) (ratio : R) (lobs : nat -> nat -> R) (x : data),
  let n := Nat.max 2 (rs - 1) in
  (2 <= rs)%nat -> distinct rs node -> lobatto n (lobs n) ->
  exists (m : mesh) (bcs : list (nat * nat)) (walls : list wall) (adj : nat -> arr),
    m_dim m = 3%nat /\ m_row_size m = rs /\ tidy m bcs walls /\ m_basis m = basis_on rs node wt ratio /\
    (forall w, In w walls -> smooth 3 rs node n (lobs n) adj w) /\
    (forall g, is_edge 3 walls g -> bounded m bcs [] g \/ exists h, is_edge 3 walls h /\ linked m [] (edge_face m g) (edge_face m h) /\ joined g h /\ meet 3 rs node adj g h) /\
    fst (sweeps m node lobs [] bcs walls adj x) <> adj.
Proof.
  intros rs node wt ratio lobs x n RS DI LO. exists (corner rs node wt ratio), (to_ghosts corner_outside), corner_walls, (corner_adj rs node). split; [reflexivity|]. split; [reflexivity|]. split; [now apply corner_tidy|]. split; [reflexivity|].
  split; [intros w W; now apply corner_smooth|]. split; [intros g G; now apply corner_edges|]. now apply corner_changed.
Qed.
Print Assumptions sweep_corner_refuted.

(** Where a fine wall hangs on a coarse one, the second sweep is to give the fine one the displacement of the coarse one: it doubles the displacement
    of the coarse side and is to clear that of the fine side, but clears other data. Walls with one displacement [v] all over end at [3/2*v] there. *)
Theorem sweep_hanging_refuted : forall (rs : nat) (node wt : nat -> R) (ratio : R) (lobs : nat -> nat -> R) (v : R) (x : data) (k : nat),
  let n := Nat.max 2 (rs - 1) in
  (2 <= rs)%nat -> as_lobatto rs node wt -> lobatto n (lobs n) -> (k < 2)%nat ->
  let m := hanging rs node wt ratio in let bcs := to_ghosts hang_outside in
  let after := fst (sweeps m node lobs hang_cons bcs hang_walls (fun _ _ => v) x) in
  tidy m bcs hang_walls /\
  (forall w z, In w hang_walls -> moved 3 rs node (fun _ _ => v) w z = v) /\
  (forall z, (exists i, (i < rs)%nat /\ z 1%nat = node i) -> z 2%nat = 0 -> moved 3 rs node after (side_wall (1 + k)) z = 3 / 2 * v).
Proof.
  intros rs node wt ratio lobs v x k n RS LB LO K m bcs after. split; [now apply hanging_tidy|]. split.
  - intros w z W. destruct W as [<-|[<-|[<-|[]]]]; now apply (uniform_moved rs node wt).
  - intros z (i & I & Z1) Z2. assert (F : (i < rs ^ 2)%nat) by (cbn; nia). unfold after, m, bcs. rewrite <- (hanging_after rs node wt ratio lobs v x RS LB LO k i K F). apply (moved_ext 3 rs node); try (cbn; lia).
    intros c C NC. cbn in NC. unfold face_point. destruct c as [|[|[|c]]]; try lia; cbn [Nat.eqb Nat.sub]; [|exact Z2]. change (Row_Spec.drop 2 1) with 1%nat. now rewrite digit_last.
Qed.
Print Assumptions sweep_hanging_refuted.

(** ** two elements side by side, with their walls above; the left one is moved by 1 and the right one by 3 *)
Definition ex_quad (i : nat) : elem := {| e_face := fun f => (4 * i + f)%nat; e_tss := fun _ => 1; e_size := 1; e_deformed := true; e_det := fun _ => 1; e_nrml := fun _ => 0; e_face_nrml := fun _ => None |}.
Definition ex_outside : list nat := [0; 2; 3; 5; 6; 7]%nat.
Definition ex_pair : mesh := {| m_dim := 2; m_row_size := 4; m_basis := basis_on 4 INR (fun _ => 1 / 4) (1 / 2); car_cons := []; def_cons := link 1 4 (mk_dir 0 0 true false) :: map (fun f => link f (100 + f) (mk_dir (f mod 4 / 2) (f mod 4 / 2) (f mod 2 =? 1)%nat (f mod 2 =? 0)%nat)) ex_outside;
  car_elems := []; def_elems := [0; 1]%nat; m_elem := ex_quad; ref_faces := [] |}.
Definition ex_top (i : nat) : wall := {| w_elem := i; w_dim := 1; w_sign := 1 |}.
Definition ex_lobs (n i : nat) : R := INR i / INR (n - 1).
Definition ex_adj : nat -> arr := fun i _ => if (i =? 0)%nat then 1 else 3.
Definition ex_at (t : R) (c : nat) : R := if (c =? 0)%nat then t else 1.
Lemma ex_tidy : tidy ex_pair (to_ghosts ex_outside) [ex_top 0; ex_top 1].
Proof.
  constructor; try (cbn; lia).
  - apply nodup_check. reflexivity.
  - apply nodup_check. vm_compute. reflexivity.
  - apply nodup_check. vm_compute. reflexivity.
  - intros i [].
  - apply incl_check. vm_compute. reflexivity.
  - apply nodup_check. reflexivity.
  - intros w [<-|[<-|[]]]; cbn; lia.
Qed.
Lemma ex_inr : distinct 4 INR. Proof. intros i j _ _. apply INR_eq. Qed.
Lemma ex_lobatto : lobatto 3 (ex_lobs 3).
Proof. split; [|split; unfold ex_lobs; cbn; lra]. intros i j I J E. apply INR_eq. unfold ex_lobs in E. cbn in E. lra. Qed.
Lemma ex_moved i y : moved 2 4 INR ex_adj (ex_top i) y = if (i =? 0)%nat then 1 else 3.
Proof. unfold moved, ex_adj. cbn [ex_top w_sign w_elem w_dim Nat.eqb]. rewrite through_const by (lia || exact ex_inr). ring. Qed.
Lemma ex_bounded i b s : (i < 2)%nat -> In (4 * i + (2 * b + s))%nat ex_outside -> bounded ex_pair (to_ghosts ex_outside) [] {| g_wall := ex_top i; g_dim := b; g_sign := s |}.
Proof.
  intros I F. set (f := (4 * i + (2 * b + s))%nat) in *. exists (100 + f)%nat. change (edge_face ex_pair _) with f. split; [exact (in_map (fun f => (f, (100 + f)%nat)) _ _ F)|].
  eexists. split; [right; apply (in_map (fun f => link f (100 + f) _)); exact F|]. split; [intros side []|]. left. now split.
Qed.
(** they meet at 2, and keep their distance at the outer ends and in the middle *)
Example sweep_pair x : let after i t := moved 2 4 INR (fst (sweeps ex_pair INR ex_lobs [] (to_ghosts ex_outside) [ex_top 0; ex_top 1] ex_adj x)) (ex_top i) (ex_at t) in
  after 0%nat 0 = 1 /\ after 0%nat (1 / 2) = 1 /\ after 0%nat 1 = 2 /\ after 1%nat 0 = 2 /\ after 1%nat (1 / 2) = 3 /\ after 1%nat 1 = 3.
Proof.
  intros after. unfold after. clear after. destruct (sweep_plane ex_pair (to_ghosts ex_outside) [ex_top 0; ex_top 1] [] INR (fun _ => 1 / 4) (1 / 2) ex_lobs ex_adj x eq_refl ex_tidy eq_refl ex_inr ex_lobatto) as (A & B & C). change (m_row_size ex_pair) with 4%nat in *.
  assert (G : forall i s, (i < 2)%nat -> (s < 2)%nat -> is_edge 2 [ex_top 0; ex_top 1] {| g_wall := ex_top i; g_dim := 0; g_sign := s |}) by (intros i s I S; split; [destruct i as [|[|i]]; [now left|right; now left|lia]|repeat split; cbn; lia]).
  destruct (A {| g_wall := ex_top 0; g_dim := 0; g_sign := 1 |} {| g_wall := ex_top 1; g_dim := 0; g_sign := 0 |} (ex_at 1) (ex_at 0)) as [A1 A2]; try (apply G; lia); try reflexivity.
  { exists (link 1 4 (mk_dir 0 0 true false)). split; [now left|]. split; [intros side []|]. left. now split. }
  cbn [g_wall] in A1, A2. rewrite !ex_moved in A1. cbn [Nat.eqb] in A1.
  pose proof (B {| g_wall := ex_top 0; g_dim := 0; g_sign := 0 |} (ex_at 0) (G 0%nat 0%nat ltac:(lia) ltac:(lia)) (ex_bounded 0 0 0 ltac:(lia) ltac:(cbn; tauto)) eq_refl) as B0. pose proof (B {| g_wall := ex_top 1; g_dim := 0; g_sign := 1 |} (ex_at 1) (G 1%nat 1%nat ltac:(lia) ltac:(lia)) (ex_bounded 1 0 1 ltac:(lia) ltac:(cbn; tauto)) eq_refl) as B1.
  cbn [g_wall] in B0, B1. rewrite ex_moved in B0, B1.
  assert (M : forall i, (i < 2)%nat -> moved 2 4 INR (fst (sweeps ex_pair INR ex_lobs [] (to_ghosts ex_outside) [ex_top 0; ex_top 1] ex_adj x)) (ex_top i) (ex_at (1 / 2)) = moved 2 4 INR ex_adj (ex_top i) (ex_at (1 / 2))).
  { intros i I. apply (C (ex_top i) 0%nat 1%nat); try (cbn; lia); [destruct i as [|[|i]]; [now left|right; now left|lia]|]. unfold ex_at, ex_lobs. cbn. lra. }
  rewrite A2, A1, B0, B1, !M, !ex_moved by lia. cbn [Nat.eqb]. repeat split; lra.
Qed.
(** and the state of the flow is as before *)
Example sweep_pair_state x i k : d_state (snd (sweeps ex_pair INR ex_lobs [] (to_ghosts ex_outside) [ex_top 0; ex_top 1] ex_adj x)) i k = d_state x i k.
Proof. apply (sweep_keeps ex_pair (to_ghosts ex_outside) [ex_top 0; ex_top 1] [] INR ex_lobs ex_adj x ex_tidy). Qed.

(** ** two elements one above the other in three dimensions, with walls at the right that are moved by 2 *)
Definition ex_flat_outside : list nat := [0; 1; 2; 3; 4; 6; 7; 8; 9; 11]%nat.
Definition ex_flat : mesh := {| m_dim := 3; m_row_size := 4; m_basis := basis_on 4 INR (fun _ => 1 / 4) (1 / 2); car_cons := []; def_cons := link 5 10 (mk_dir 2 2 true false) :: ghost_cons ex_flat_outside; car_elems := []; def_elems := [0; 1]%nat; m_elem := box; ref_faces := [] |}.
Lemma ex_flat_tidy : tidy ex_flat (to_ghosts ex_flat_outside) [side_wall 0; side_wall 1].
Proof.
  constructor; try (cbn; lia).
  - apply nodup_check. reflexivity.
  - apply nodup_check. vm_compute. reflexivity.
  - apply nodup_check. vm_compute. reflexivity.
  - intros i [].
  - apply incl_check. vm_compute. reflexivity.
  - apply nodup_check. reflexivity.
  - intros w [<-|[<-|[]]]; cbn; lia.
Qed.
Lemma ex_flat_moved i y : moved 3 4 INR (fun _ _ => 2) (side_wall i) y = 2.
Proof. unfold moved. cbn [side_wall w_sign Nat.eqb]. rewrite through_const by (lia || exact ex_inr). ring. Qed.
Example sweep_flat x : fst (sweeps ex_flat INR ex_lobs [] (to_ghosts ex_flat_outside) [side_wall 0; side_wall 1] (fun _ _ => 2) x) = fun _ _ => 2.
Proof.
  apply (sweep_stays_partial ex_flat (to_ghosts ex_flat_outside) [side_wall 0; side_wall 1] [] INR (fun _ => 1 / 4) (1 / 2) ex_lobs (fun _ _ => 2) x ex_flat_tidy eq_refl ex_inr ex_lobatto).
  - intros w W. exists (fun _ => 2). intros y. change (m_dim ex_flat - 1)%nat with 2%nat. rewrite through_const by (cbn; lia || apply ex_lobatto). destruct W as [<-|[<-|[]]]; apply ex_flat_moved.
  - intros [w b s] (W & D & NE & S). cbn [g_wall g_dim g_sign] in *. change (m_dim ex_flat) with 3%nat in D.
    assert (GH : forall f, In f ex_flat_outside -> edge_face ex_flat {| g_wall := w; g_dim := b; g_sign := s |} = f -> bounded ex_flat (to_ghosts ex_flat_outside) [] {| g_wall := w; g_dim := b; g_sign := s |}).
    { intros f I E. exists (100 + f)%nat. rewrite E. split; [exact (in_map (fun f => (f, (100 + f)%nat)) _ _ I)|]. eexists. split; [right; apply (in_map (fun f => link f (100 + f) _)); exact I|]. split; [intros side []|]. left. now split. }
    assert (ME : forall h, In (g_wall h) [side_wall 0; side_wall 1] -> meet 3 4 INR (fun _ _ => 2) {| g_wall := w; g_dim := b; g_sign := s |} h) by (intros h H y z _; cbn [g_wall]; destruct W as [<-|[<-|[]]], H as [<-|[<-|[]]]; now rewrite !ex_flat_moved).
    destruct W as [<-|[<-|[]]]; cbn [w_dim side_wall] in NE; destruct b as [|[|[|b]]]; try lia; destruct s as [|[|s]]; try lia;
      try (left; eapply GH; [|reflexivity]; cbn; tauto); right.
    + exists {| g_wall := side_wall 1; g_dim := 2; g_sign := 0 |}. split; [split; [right; now left|repeat split; cbn; lia]|]. split; [exists (link 5 10 (mk_dir 2 2 true false)); split; [now left|split; [intros side []|left; now split]]|]. split; [left; now split|]. split; [now left|]. apply ME. right. now left.
    + exists {| g_wall := side_wall 0; g_dim := 2; g_sign := 1 |}. split; [split; [now left|repeat split; cbn; lia]|]. split; [exists (link 5 10 (mk_dir 2 2 true false)); split; [now left|split; [intros side []|right; now split]]|]. split; [left; now split|]. split; [now left|]. apply ME. now left.
Qed.
