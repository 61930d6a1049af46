(** The two meshes on which the sweeps of three dimensions go wrong. *)
From Coq Require Import Reals List Arith Lia Lra FunctionalExtensionality.
From Verif Require Import Outcome RSum Tensor_Spec Tensor_Proofs Row_Model Row_Spec Row_Proofs Connection_Model Basis_Model Basis_Spec Basis_Proofs Quad_Model Quad_Spec Quad_Proofs Spatial_Model Spatial_Spec Spatial_Proofs Spatial_Proofs2 Spatial_Proofs3 Spatial_Proofs4 Spatial_Proofs5 Free_Spec Free_Model Free_Proofs1 Jac_Proofs4 Snap_Proofs1 Snap_Proofs2 Sweep_Model Sweep_Spec Sweep_Proofs1 Sweep_Proofs2 Sweep_Proofs3 Sweep_Proofs4 Sweep_Proofs5.
From Verif Require Import Snap_Spec.
Import ListNotations.
Local Open Scope R_scope.

Lemma nodup_check (l : list nat) : (fix go l := match l with [] => true | x :: l => (negb (existsb (Nat.eqb x) l) && go l)%bool end) l = true -> NoDup l.
Proof.
  induction l as [|x l IH]; intros H; [constructor|]. apply Bool.andb_true_iff in H as [H1 H2]. constructor; [|now apply IH]. intros I. assert (existsb (Nat.eqb x) l = true) by (apply existsb_exists; exists x; split; [exact I|apply Nat.eqb_refl]). rewrite H in H1. discriminate.
Qed.
Lemma incl_check (l l' : list nat) : forallb (fun x => existsb (Nat.eqb x) l') l = true -> incl l l'.
Proof. intros H x I. rewrite forallb_forall in H. specialize (H x I). apply existsb_exists in H as (y & Y & E). apply Nat.eqb_eq in E. now subst. Qed.

(** displacements that are constant or equal to one of the coordinates *)
Lemma through_coord n rs node l y : (2 <= rs)%nat -> distinct rs node -> (l < n)%nat -> through n rs node (fun k => node (digit rs n l k)) y = y l.
Proof.
  intros R D L. apply (through_exact n rs node ltac:(lia) D (fun y => y l)).
  - intros z z' E. now apply E.
  - intros z l' L'. unfold at_coord. destruct (Nat.eqb_spec l l') as [->|NE].
    + apply (poly_ext _ (fun x => 0 + 1 * x)); [now apply linear_poly|intros; rewrite ?Nat.eqb_refl; ring].
    + apply (poly_ext _ (fun x => z l + 0 * x)); [now apply linear_poly|intros; ring].
Qed.
Lemma through_const n rs node c y : (2 <= rs)%nat -> distinct rs node -> through n rs node (fun _ => c) y = c.
Proof.
  intros R D. apply (through_exact n rs node ltac:(lia) D (fun _ => c)); [reflexivity|].
  intros z l' L'. apply (poly_ext _ (fun x => c + 0 * x)); [now apply linear_poly|intros; ring].
Qed.

Lemma digit_last rs b : (b < rs)%nat -> digit rs 2 1 b = b. Proof. intros H. unfold digit. change (2 - 1 - 1)%nat with 0%nat. rewrite Nat.pow_0_r, Nat.div_1_r. now apply Nat.mod_small. Qed.

(** A mesh of elements, of which number [i] has the faces [6*i], ..., [6*i+5] *)
Definition box (i : nat) : elem := {| e_face := fun f => (6 * i + f)%nat; e_tss := fun _ => 1; e_size := 1; e_deformed := true; e_det := fun _ => 1; e_nrml := fun _ => 0; e_face_nrml := fun _ => None |}.
Definition link (a c : nat) (d : direction) : con := {| c_face := fun side => if side then c else a; c_deformed := true; c_dir := d; c_normal := fun _ => 0 |}.
(** the boundary connections of the faces [l]; the ghost of face [f] is [100+f] *)
Definition to_ghosts (l : list nat) : list (nat * nat) := map (fun f => (f, (100 + f)%nat)) l.
Definition ghost_cons (l : list nat) : list con := map (fun f => link f (100 + f) (mk_dir (f mod 6 / 2) (f mod 6 / 2) (f mod 2 =? 1)%nat (f mod 2 =? 0)%nat)) l.

(** *** an outer corner along the axis of dimension 1 *)
Section Corner.
Variables (rs : nat) (node wt : nat -> R) (ratio : R) (lobs : nat -> nat -> R) (x : data).
Definition corner_outside : list nat := [0; 2; 3; 4; 8; 9; 6; 10; 1; 11]%nat.
Definition corner : mesh := {| m_dim := 3; m_row_size := rs; m_basis := basis_on rs node wt ratio; car_cons := []; def_cons := link 5 7 (mk_dir 2 0 true true) :: ghost_cons corner_outside; car_elems := []; def_elems := [0; 1]%nat; m_elem := box; ref_faces := [] |}.
Definition corner_walls : list wall := [{| w_elem := 0; w_dim := 0; w_sign := 1 |}; {| w_elem := 1; w_dim := 2; w_sign := 1 |}].
(** both walls are moved by the coordinate 1 *)
Definition corner_adj : nat -> arr := fun i k => node (digit rs 2 i (k mod rs ^ 2)).
Hypotheses (RS : (2 <= rs)%nat) (DI : distinct rs node) (LO : lobatto (Nat.max 2 (rs - 1)) (lobs (Nat.max 2 (rs - 1)))).
Lemma corner_tidy : tidy corner (to_ghosts corner_outside) corner_walls.
Proof.
  constructor; try (cbn; lia).
  - apply nodup_check. reflexivity.
  - apply nodup_check. vm_compute. reflexivity.
  - apply nodup_check. vm_compute. reflexivity.
  - intros i [].
  - apply incl_check. vm_compute. reflexivity.
  - apply nodup_check. reflexivity.
  - intros w [<-|[<-|[]]]; cbn; lia.
Qed.
Lemma corner_moved w y : In w corner_walls -> moved 3 rs node corner_adj w y = y 1%nat.
Proof.
  intros [<-|[<-|[]]]; unfold moved; cbn [w_sign w_elem w_dim Nat.eqb Nat.sub]; rewrite Rmult_1_l.
  - rewrite (through_ext 2 rs node _ (fun k => node (digit rs 2 0 k)) _ (without 0 y)); [|intros k K|reflexivity].
    + now rewrite through_coord by (assumption || lia).
    + unfold corner_adj. do 2 f_equal. rewrite Nat.add_comm, Nat.mod_add by (apply Nat.pow_nonzero; lia). now apply Nat.mod_small.
  - rewrite (through_ext 2 rs node _ (fun k => node (digit rs 2 1 k)) _ (without 2 y)); [|intros k K|reflexivity].
    + now rewrite through_coord by (assumption || lia).
    + unfold corner_adj. do 2 f_equal. rewrite Nat.add_comm, Nat.mod_add by (apply Nat.pow_nonzero; lia). now apply Nat.mod_small.
Qed.
Let n := Nat.max 2 (rs - 1).
Lemma corner_smooth w : In w corner_walls -> smooth 3 rs node n (lobs n) corner_adj w.
Proof.
  intros I. destruct LO as (DL & _). assert (N2 : (2 <= n)%nat) by (unfold n; lia). exists (fun k => lobs n (digit n 2 (w_elem w) k)). intros y. rewrite corner_moved by exact I. destruct I as [<-|[<-|[]]]; cbn [w_elem w_dim Nat.sub]; now rewrite through_coord by (assumption || lia).
Qed.
Definition edge_a : edge := {| g_wall := {| w_elem := 0; w_dim := 0; w_sign := 1 |}; g_dim := 2; g_sign := 1 |}.
Definition edge_b : edge := {| g_wall := {| w_elem := 1; w_dim := 2; w_sign := 1 |}; g_dim := 0; g_sign := 1 |}.
Lemma corner_edge_a : is_edge 3 corner_walls edge_a. Proof. repeat split; cbn; auto; lia. Qed.
Lemma corner_edge_b : is_edge 3 corner_walls edge_b. Proof. repeat split; cbn; auto; lia. Qed.
Lemma corner_joined : joined edge_a edge_b. Proof. right. now split. Qed.
Lemma corner_linked : linked corner [] (edge_face corner edge_a) (edge_face corner edge_b).
Proof. exists (link 5 7 (mk_dir 2 0 true true)). split; [now left|]. split; [intros side []|]. left. now split. Qed.
Lemma corner_meet g h : In (g_wall g) corner_walls -> In (g_wall h) corner_walls -> (g_dim g <> 1)%nat -> (w_dim (g_wall g) <> 1)%nat -> meet 3 rs node corner_adj g h.
Proof. intros G H N1 N2 y z (_ & _ & E). rewrite !corner_moved by assumption. apply E; lia. Qed.
(** every edge is at the boundary or the corner *)
Lemma corner_edges g : is_edge 3 corner_walls g -> bounded corner (to_ghosts corner_outside) [] g \/ exists h, is_edge 3 corner_walls h /\ linked corner [] (edge_face corner g) (edge_face corner h) /\ joined g h /\ meet 3 rs node corner_adj g h.
Proof.
  intros (W & D & NE & S). destruct g as [w b s]. cbn [g_wall g_dim g_sign] in *.
  assert (GH : forall f, In f corner_outside -> edge_face corner {| g_wall := w; g_dim := b; g_sign := s |} = f -> bounded corner (to_ghosts corner_outside) [] {| g_wall := w; g_dim := b; g_sign := s |}).
  { intros f I E. exists (100 + f)%nat. rewrite E. split; [exact (in_map (fun f => (f, (100 + f)%nat)) _ _ I)|]. eexists. split; [right; apply (in_map (fun f => link f (100 + f) _)); exact I|]. split; [intros side []|]. left. now split. }
  destruct W as [<-|[<-|[]]]; cbn [w_dim] in NE; destruct b as [|[|[|b]]]; try lia; destruct s as [|[|s]]; try lia;
    try (left; apply (GH 2%nat); [cbn; tauto|reflexivity]); try (left; apply (GH 3%nat); [cbn; tauto|reflexivity]); try (left; apply (GH 4%nat); [cbn; tauto|reflexivity]); try (left; apply (GH 6%nat); [cbn; tauto|reflexivity]); try (left; apply (GH 8%nat); [cbn; tauto|reflexivity]); try (left; apply (GH 9%nat); [cbn; tauto|reflexivity]); right.
  - exists edge_b. split; [exact corner_edge_b|]. split; [exact corner_linked|]. split; [exact corner_joined|]. apply corner_meet; cbn; auto.
  - exists edge_a. split; [exact corner_edge_a|]. split; [|split].
    + destruct corner_linked as (c & C & S' & [L|L]); exists c; (split; [exact C|split; [exact S'|tauto]]).
    + right. now split.
    + apply corner_meet; cbn; auto.
Qed.
Local Notation res := (sweeps corner node lobs [] (to_ghosts corner_outside) corner_walls corner_adj x).
Let s1 := sweep corner node lobs [] (to_ghosts corner_outside) corner_walls 0 (corner_adj, save corner x).
Let s2 := sweep corner node lobs [] (to_ghosts corner_outside) corner_walls 1 s1.
Let res_is : fst res = fst s2. Proof. change (fst (let '(adj, x) := s2 in (adj, put_back corner x)) = fst s2). now destruct s2. Qed.
Let point_b b : nat -> R := face_point 3 rs node 2 1 b.
Let P_last : last_dim corner (g_wall edge_a) (g_dim edge_a). Proof. split; [cbn; lia|split; [cbn; lia|]]. intros j J NJ. change (j < 3)%nat in J. cbn. lia. Qed.
Let small b : (b < rs)%nat -> (b < rs ^ (3 - 1))%nat. Proof. intros H. cbn. nia. Qed.
Let low b : (b < rs)%nat -> exists l, lowered corner (g_wall edge_a) 2 b = l /\ (l < rs ^ 2)%nat /\ digit rs 2 0 l = 0%nat /\ digit rs 2 1 l = b.
Proof.
  intros H. pose proof corner_tidy as T. eexists. split; [reflexivity|].
  assert (D : forall c, (c < 2)%nat -> digit rs 2 c (lowered corner (g_wall edge_a) 2 b) = if (c =? 0)%nat then 0%nat else digit rs 2 c b).
  { intros c C. pose proof (digit_lowered corner (to_ghosts corner_outside) corner_walls T (g_wall edge_a) 2 b c ltac:(cbn; lia) ltac:(cbn; lia) ltac:(cbn; lia) (small b H) ltac:(cbn; lia) ltac:(lia)) as E. replace (drop 2 c) with c in E by (unfold drop; destruct c as [|[|c]]; [reflexivity..|lia]). exact E. }
  split; [apply (lowered_row corner (to_ghosts corner_outside) corner_walls T (g_wall edge_a) 2 b 0); cbn -[Nat.pow]; try lia; now apply small|]. split; [exact (D 0%nat ltac:(lia))|]. rewrite (D 1%nat) by lia. now apply digit_last.
Qed.
(** what one sweep makes of the edge of the first element *)
Let step k adj y b l : (b < rs)%nat -> lowered corner (g_wall edge_a) 2 b = l -> (l < rs ^ 2)%nat ->
  moved 3 rs node (fst (sweep corner node lobs [] (to_ghosts corner_outside) corner_walls k (adj, y))) (g_wall edge_a) (point_b b) =
  1 / 2 * (moved 3 rs node adj (g_wall edge_a) (face_point 3 rs node 2 1 l) + moved 3 rs node adj (g_wall edge_b) (face_point 3 rs node 0 1 l)).
Proof.
  intros H E L. pose proof corner_tidy as T. unfold point_b.
  pose proof (edge_after corner _ corner_walls [] node lobs T DI LO k adj y edge_a b corner_edge_a P_last (small b H)) as EA. etransitivity; [exact EA|]. change (g_dim edge_a) with 2%nat. rewrite E.
  exact (linked_value corner _ corner_walls [] node wt ratio T eq_refl DI k adj y edge_a edge_b l corner_edge_a corner_edge_b corner_linked L).
Qed.
Lemma corner_after b : (b < rs)%nat -> moved 3 rs node (fst res) (g_wall edge_a) (point_b b) - moved 3 rs node (fst res) (g_wall edge_a) (point_b 0) = (node b - node 0%nat) / 4.
Proof.
  intros H. rewrite res_is. unfold s2. assert (H0 : (0 < rs)%nat) by lia. pose proof corner_tidy as T.
  assert (V : forall b, (b < rs)%nat -> exists c, moved 3 rs node (fst s1) (g_wall edge_a) (point_b b) = 1 / 2 * (node b + c) /\ c = node 0%nat).
  { intros b' H'. destruct (low b' H') as (l & E & L & D0 & D1). unfold s1. rewrite (step 0 corner_adj (save corner x) b' l H' E L), !corner_moved by (cbn; auto). unfold face_point. cbn [Nat.eqb Nat.sub drop Nat.ltb Nat.leb]. rewrite D1, D0. eexists. now split. }
  assert (W : forall b l, (b < rs)%nat -> lowered corner (g_wall edge_a) 2 b = l -> (l < rs ^ 2)%nat -> digit rs 2 0 l = 0%nat -> digit rs 2 1 l = b ->
    moved 3 rs node (fst (sweep corner node lobs [] (to_ghosts corner_outside) corner_walls 1 s1)) (g_wall edge_a) (point_b b) = 1 / 2 * (1 / 2 * (node b + node 0%nat) + moved 3 rs node (fst s1) (g_wall edge_b) (fun c => if (c =? 0)%nat then 1 else node 0%nat))).
  { intros b' l H' E L D0 D1. rewrite (surjective_pairing s1). rewrite (step 1 (fst s1) (snd s1) b' l H' E L). destruct (V b' H') as (c & V1 & ->). do 2 f_equal.
    - rewrite <- V1. apply (moved_ext 3 rs node); try (cbn; lia). intros c' C' NC. unfold point_b, face_point. cbn [edge_a g_wall w_dim] in NC. destruct c' as [|[|[|c']]]; try lia; [|reflexivity]. cbn [Nat.eqb Nat.sub drop Nat.ltb Nat.leb]. rewrite D1. now rewrite digit_last.
    - apply (moved_ext 3 rs node); try (cbn; lia). intros c' C' NC. unfold face_point. cbn [edge_b g_wall w_dim] in NC. destruct c' as [|[|[|c']]]; try lia; [reflexivity|]. cbn [Nat.eqb Nat.sub drop Nat.ltb Nat.leb]. now rewrite D0. }
  destruct (low b H) as (l & E & L & D0 & D1). destruct (low 0 H0) as (l' & E' & L' & D0' & D1'). rewrite (W b l H E L D0 D1), (W 0%nat l' H0 E' L' D0' D1'). field.
Qed.
Lemma corner_changed : fst res <> corner_adj.
Proof.
  intros E. pose proof (corner_after 1 ltac:(lia)) as A. rewrite E, !corner_moved in A by (cbn; auto). unfold point_b, face_point in A. change (drop 2 1) with 1%nat in A. cbn [Nat.eqb Nat.sub] in A. rewrite !digit_last in A by lia.
  assert (EQ : node 1%nat = node 0%nat) by lra. apply DI in EQ; lia.
Qed.
End Corner.

(** *** a coarse element beside two fine ones *)
Section Hanging.
Variables (rs : nat) (node wt : nat -> R) (ratio : R) (lobs : nat -> nat -> R) (v : R) (x : data).
Definition hang_outside : list nat := [0; 1; 2; 3; 4; 6; 7; 8; 11; 12; 13; 15; 17]%nat.
Definition hang_face : refined_face := {| r_coarse := 5; r_fine := fun k => (20 + k)%nat; r_stretch := fun i => (i =? 0)%nat |}.
Definition hang_cons : list con := [link 20 10 (mk_dir 2 2 true false); link 21 16 (mk_dir 2 2 true false)].
Definition hanging : mesh := {| m_dim := 3; m_row_size := rs; m_basis := basis_on rs node wt ratio; car_cons := []; def_cons := hang_cons ++ link 9 14 (mk_dir 1 1 true false) :: ghost_cons hang_outside; car_elems := []; def_elems := [0; 1; 2]%nat; m_elem := box; ref_faces := [hang_face] |}.
Definition side_wall (i : nat) : wall := {| w_elem := i; w_dim := 0; w_sign := 1 |}.
Definition hang_walls : list wall := map side_wall [0; 1; 2]%nat.
Hypotheses (RS : (2 <= rs)%nat) (LB : as_lobatto rs node wt) (LO : lobatto (Nat.max 2 (rs - 1)) (lobs (Nat.max 2 (rs - 1)))).
Let DI : distinct rs node := proj1 (proj1 LB).
Let nfq := (rs ^ 2)%nat.
Lemma hanging_tidy : tidy hanging (to_ghosts hang_outside) hang_walls.
Proof.
  constructor; try (cbn; lia).
  - apply nodup_check. reflexivity.
  - apply nodup_check. vm_compute. reflexivity.
  - apply nodup_check. vm_compute. reflexivity.
  - apply incl_check. vm_compute. reflexivity.
  - apply incl_check. vm_compute. reflexivity.
  - apply nodup_check. reflexivity.
  - intros w [<-|[<-|[<-|[]]]]; cbn; lia.
Qed.
Lemma uniform_moved i y : moved 3 rs node (fun _ _ => v) (side_wall i) y = v.
Proof. unfold moved. cbn [side_wall w_sign Nat.eqb]. rewrite through_const by assumption. ring. Qed.
Definition coarse_edge : edge := {| g_wall := side_wall 0; g_dim := 2; g_sign := 1 |}.
Definition fine_edge (k : nat) : edge := {| g_wall := side_wall (1 + k); g_dim := 2; g_sign := 0 |}.
Lemma coarse_is_edge : is_edge 3 hang_walls coarse_edge. Proof. repeat split; cbn; auto; lia. Qed.
Lemma fine_is_edge k : (k < 2)%nat -> is_edge 3 hang_walls (fine_edge k). Proof. intros K. split; [|repeat split; cbn; lia]. destruct k as [|[|k]]; [right; now left|right; right; now left|lia]. Qed.
Local Notation bcs := (to_ghosts hang_outside).
Local Notation res := (sweeps hanging node lobs hang_cons bcs hang_walls (fun _ _ => v) x).
Let s1 := sweep hanging node lobs hang_cons bcs hang_walls 0 (fun _ _ => v, save hanging x).
Let s2 := sweep hanging node lobs hang_cons bcs hang_walls 1 s1.
Let res_is : fst res = fst s2. Proof. change (fst (let '(adj, x) := s2 in (adj, put_back hanging x)) = fst s2). now destruct s2. Qed.
Let last g : g_dim g = 2%nat -> last_dim hanging (g_wall g) (g_dim g) \/ w_dim (g_wall g) = 2%nat.
Proof. intros E. rewrite E. destruct (Nat.eq_dec (w_dim (g_wall g)) 2) as [|NE]; [now right|left]. split; [cbn; lia|split; [congruence|]]. intros j J NJ. change (j < 3)%nat in J. lia. Qed.
Let last_c : last_dim hanging (g_wall coarse_edge) (g_dim coarse_edge). Proof. destruct (last coarse_edge eq_refl) as [H|H]; [exact H|discriminate H]. Qed.
Let last_f k : last_dim hanging (g_wall (fine_edge k)) (g_dim (fine_edge k)). Proof. destruct (last (fine_edge k) eq_refl) as [H|H]; [exact H|discriminate H]. Qed.
Let low g f : In (g_wall g) hang_walls -> g_dim g = 2%nat -> (f < nfq)%nat -> (lowered hanging (g_wall g) (g_dim g) f < nfq)%nat.
Proof. intros W E F. rewrite E. assert (WD : w_dim (g_wall g) = 0%nat) by (destruct W as [<-|[<-|[<-|[]]]]; reflexivity). apply (lowered_row hanging bcs hang_walls hanging_tidy (g_wall g) 2 f 0); try rewrite WD; cbn [m_dim hanging m_row_size]; try lia. exact F. Qed.
Let fine_con k : (k < n_fine 3 (r_stretch hang_face))%nat -> In (nth k hang_cons (link 0 0 (mk_dir 0 0 true true))) (def_cons hanging) /\ c_face (nth k hang_cons (link 0 0 (mk_dir 0 0 true true))) false = r_fine hang_face k /\
  c_face (nth k hang_cons (link 0 0 (mk_dir 0 0 true true))) true = edge_face hanging (fine_edge k) /\ is_edge 3 hang_walls (fine_edge k).
Proof. intros K. change (k < 2)%nat in K. split; [|split; [|split; [|now apply fine_is_edge]]]; destruct k as [|[|k]]; try lia; try reflexivity; [now left|right; now left]. Qed.
Let at_start i s f : is_edge 3 hang_walls {| g_wall := side_wall i; g_dim := 2; g_sign := s |} -> (f < nfq)%nat -> at_edge hanging node (fun _ _ => v) {| g_wall := side_wall i; g_dim := 2; g_sign := s |} f = v.
Proof. intros G F. rewrite (at_edge_moved hanging bcs hang_walls node hanging_tidy DI) by assumption. apply uniform_moved. Qed.
Let first_coarse f : (f < nfq)%nat -> at_edge hanging node (fst s1) coarse_edge f = v.
Proof.
  intros F. rewrite (at_edge_moved hanging bcs hang_walls node hanging_tidy DI) by (exact F || exact coarse_is_edge). unfold s1.
  etransitivity; [exact (edge_after hanging bcs hang_walls hang_cons node lobs hanging_tidy DI LO 0 (fun _ _ => v) (save hanging x) coarse_edge f coarse_is_edge last_c F)|].
  apply (hanging_coarse hanging bcs hang_walls hang_cons node wt ratio hanging_tidy eq_refl (fun _ _ => v) (save hanging x) hang_face coarse_edge v (fun k => nth k hang_cons (link 0 0 (mk_dir 0 0 true true))) fine_edge eq_refl eq_refl coarse_is_edge); [|exact LB| |].
  - intros p P. apply (at_start 0 1); [exact coarse_is_edge|exact P].
  - intros k K. destruct (fine_con k K) as (A & B & C & D). split; [exact A|split; [exact B|split; [exact C|split; [exact D|]]]]. intros p P. apply (at_start (1 + k) 0); [exact D|exact P].
  - apply low; [now left|reflexivity|exact F].
Qed.
Let first_fine k f : (k < 2)%nat -> (f < nfq)%nat -> at_edge hanging node (fst s1) (fine_edge k) f = v.
Proof.
  intros K F. rewrite (at_edge_moved hanging bcs hang_walls node hanging_tidy DI) by (exact F || now apply fine_is_edge). unfold s1.
  etransitivity; [exact (edge_after hanging bcs hang_walls hang_cons node lobs hanging_tidy DI LO 0 (fun _ _ => v) (save hanging x) (fine_edge k) f (fine_is_edge k K) (last_f k) F)|].
  destruct (fine_con k K) as (A & B & C & D). pose proof (low (fine_edge k) f (proj1 D) eq_refl F) as L.
  destruct (hanging_first hanging bcs hang_walls hang_cons node wt ratio hanging_tidy eq_refl 0 (fun _ _ => v) (save hanging x) hang_face coarse_edge v eq_refl eq_refl coarse_is_edge) with (c := nth k hang_cons (link 0 0 (mk_dir 0 0 true true))) (k := k) (h := fine_edge k) (f := lowered hanging (g_wall (fine_edge k)) (g_dim (fine_edge k)) f) as [E _]; try assumption; try reflexivity.
  - intros p P. apply (at_start 0 1); [exact coarse_is_edge|exact P].
  - rewrite E, (at_start (1 + k) 0) by assumption. field.
Qed.
(** after the second sweep the fine walls lie half as far again outside *)
Lemma hanging_after k f : (k < 2)%nat -> (f < nfq)%nat -> moved 3 rs node (fst res) (side_wall (1 + k)) (face_point 3 rs node 2 0 f) = 3 / 2 * v.
Proof.
  intros K F. rewrite res_is. unfold s2. rewrite (surjective_pairing s1).
  etransitivity; [exact (edge_after hanging bcs hang_walls hang_cons node lobs hanging_tidy DI LO 1 (fst s1) (snd s1) (fine_edge k) f (fine_is_edge k K) (last_f k) F)|].
  destruct (fine_con k K) as (A & B & C & D). pose proof (low (fine_edge k) f (proj1 D) eq_refl F) as L.
  rewrite (hanging_later hanging bcs hang_walls hang_cons node wt ratio hanging_tidy eq_refl 1 (fst s1) (snd s1) hang_face coarse_edge v eq_refl eq_refl coarse_is_edge first_coarse DI (nth k hang_cons (link 0 0 (mk_dir 0 0 true true))) k (fine_edge k) A K B C D); try assumption.
  - rewrite first_fine by assumption. field.
  - discriminate.
  - apply nodup_check. reflexivity.
  - apply nth_In. exact K.
  - destruct k as [|[|k]]; [..|lia]; intros [I|[I|[]]]; discriminate I.
Qed.
End Hanging.
