(** Theorems about the layers of extruded elements. *)
From Coq Require Import ZArith QArith List Bool Arith Lia Permutation.
From Verif Require Import Outcome Loop ListUtil Tree_Model Tree_Spec Update_Model Update_Spec Update_Thm Trim_Model Trim_Spec Trim_Proofs7 Trim_Thm
  Join_Model Join_Spec Join_Proofs1 Join_Proofs2 Join_Proofs3 Join_Proofs4 Join_Proofs5 Join_Proofs6 Join_Proofs7 Join_Thm Extr_Model Extr_Spec Extr_Proofs1 Extr_Proofs2.
Import ListNotations.
Local Open Scope nat_scope.

(** ** C84 *)

(** What is reached from a new mesh by updates, [set_surface], and then updates and [split_layers] in any order. The updates
    lose no elements (C75), and once there is more than one layer, no refinement of extruded elements is asked for (C85).
    The flag tells whether there is only one layer. *)
Inductive layer_history (n : nat) : bool -> joined -> Prop :=
| layer_first js surf start away order sides fuel js' : plain_history n js -> some_orders order -> fitting sides ->
    surface_layer fuel n surf start away order sides js = Ok js' -> layer_history n true js'
| layer_next one js surf away order ref unref sides fuel st1 js' : layer_history n one js -> some_orders order -> fitting sides ->
    update_mesh fuel n surf ref unref (extr_pairs js) (j_st js) = Ok st1 -> no_orphans st1 ->
    (one = true \/ forall i, is_extruded (j_st js) i -> ref i = true -> unref i = true) ->
    update_layer fuel n surf away order ref unref sides js = Ok js' -> layer_history n one js'
| layer_split one js surf_bc layers : layer_history n one js -> Forall fitting layers -> layer_history n false (split_layers n surf_bc layers js).

Record layered (n : nat) (js : joined) : Prop := {
  la_sound : sound n js;
  la_gap : no_gap n js;
  la_ext : extrudable n (j_st js)
}.

Lemma grows_extrudable n js js' : sound n js -> sound n js' -> grows js js' -> extrudable n (j_st js) -> extrudable n (j_st js').
Proof.
  intros S S' G [A B C D]. assert (Oc : forall q y, occupied (j_st js') q y -> occupied (j_st js) q y).
  { intros q y [L (i & H)]. destruct (proj1 (gr_leaf _ _ G i q y) (conj L H)) as [L' H']. split; eauto. }
  assert (Od : forall q y, occupied (j_st js) q y -> occupied (j_st js') q y).
  { intros q y [L (i & H)]. destruct (proj2 (gr_leaf _ _ G i q y) (conj L H)) as [L' H']. split; eauto. }
  assert (Cv : forall x d s, covered_face n (j_st js) x d s -> covered_face n (j_st js') x d s) by (intros x d s H; now apply (grows_covered n js js' x d s S S' G)).
  split.
  - intros p x q y d sign O1 O2 Hd U Sh. apply Cv. eapply A; [apply Oc, O1|apply Oc, O2|exact Hd|exact U|exact Sh].
  - intros p x q y dir a b O1 O2 H1 H2 H3. destruct (B p x q y dir a b (Oc _ _ O1) (Oc _ _ O2) H1 H2 H3) as [K|K]; [left|right]; apply Cv; exact K.
  - intros p x q y dir a b c O1 O2 H1 H2 H3. destruct (C p x q y dir a b c (Oc _ _ O1) (Oc _ _ O2) H1 H2 H3) as [K|[K|K]]; [left|right; left|right; right]; apply Cv; exact K.
  - intros Hn p x q y dir a b O1 O2 H1 H2 H3 q' y' L T. apply Od. unfold side_covered in H3. rewrite !(grows_covered n js js' x _ _ S S' G) in H3. rewrite (gr_tree _ _ G) in L.
    eapply D; [exact Hn|apply Oc, O1|apply Oc, O2|exact H1|exact H2|exact H3|exact L|exact T].
Qed.

Lemma finish_layer n sides js : sound n js -> exposed_deformed n (j_st js) -> extrudable n (j_st js) -> fitting sides ->
  let js' := connect_rest n (extrude n false sides js) in layered n js' /\ (one_layer js -> one_layer js') /\ (rooted js -> rooted js').
Proof.
  intros Sd Ed Ex Ft. destruct (extrude_sound n false sides js Sd Ft) as (S1 & G1 & C1 & L1). destruct (C1 Ed) as [T1 _]. destruct (connect_rest_ok n _ S1 T1) as (S2 & G2 & L2 & E2 & N2). cbv zeta. split; [|split; [auto|intros Rt; apply (gr_rooted _ _ G2), (gr_rooted _ _ G1), Rt]]. split; auto.
  apply (grows_extrudable n js _ Sd S2 (grows_trans _ _ _ G1 G2) Ex).
Qed.
Lemma split_layered n surf_bc layers js : layered n js -> Forall fitting layers -> layered n (split_layers n surf_bc layers js).
Proof.
  intros [Sd Ga Ex] Ft. unfold split_layers. destruct (disconnect_sound n surf_bc js Sd) as (S0 & E0 & _ & _ & T0). set (j0 := disconnect_surface surf_bc js) in *.
  assert (Tc : tree_closed n j0). { apply T0. intros i p x d s O Hd. apply Ga; [eapply on_leaf_lt; eauto|exact Hd]. }
  assert (Ex0 : extrudable n (j_st j0)) by now rewrite E0. clearbody j0. clear T0 E0 Sd Ga Ex js.
  assert (K : forall layers j0, Forall fitting layers -> sound n j0 -> tree_closed n j0 -> extrudable n (j_st j0) ->
    let j := fold_left (fun js sides => extrude n true sides js) layers j0 in sound n j /\ tree_closed n j /\ extrudable n (j_st j)).
  { clear. induction layers as [|sides layers IH]; intros j0 Ft S0 Tc Ex; cbn [fold_left]; [auto|]. inversion Ft; subst. destruct (extrude_sound n true sides j0 S0 H1) as (S1 & G1 & _).
    assert (T1 : tree_closed n (extrude n true sides j0)). { intros i p x d s O Hd. apply (gr_conn _ _ G1). apply (gr_leaf _ _ G1) in O. eapply Tc; eauto. }
    apply IH; [exact H2|exact S1|exact T1|exact (grows_extrudable n _ _ S0 S1 G1 Ex)]. }
  destruct (K layers j0 Ft S0 Tc Ex0) as (S1 & T1 & X1). destruct (connect_rest_ok n _ S1 T1) as (S2 & G2 & _ & _ & N2). split; auto. exact (grows_extrudable n _ _ S1 S2 G2 X1).
Qed.

Lemma layer_reached n one js : 2 <= n -> layer_history n one js -> layered n js /\ (one = true -> one_layer js /\ rooted js).
Proof.
  intros Hn H. induction H as [js surf start away order sides fuel js' Hp Ho Ft E|one js surf away order ref unref sides fuel st1 js' H [[Sd Ga Ex] Ol] Ho Ft E1 No Q E|one js surf_bc layers H [La Ol] Ft].
  - unfold surface_layer in E. apply bind_ok in E as (j1 & E & E'). injection E' as <-. apply (plain_reached n js Hn) in Hp as (Sd & _ & _ & Xe & Pa).
    destruct (surface_keeps n surf start away order js fuel j1 Hn Ho Sd Xe E) as ((st1 & E1 & Rj) & Sd' & Xe' & Ed & Kp). destruct Rj as (_ & _ & _ & _ & _ & _ & Ex & _).
    destruct (finish_layer n sides j1 Sd' Ed Ex Ft) as (A & B & Rt). split; [exact A|]. intros _. split.
    + apply B. intros i o d s K. apply (so_listed n j1 Sd') in K. rewrite Xe' in K. destruct K.
    + apply Rt. intros o (e & He & Pe). exfalso. exact (Kp Pa o e He Pe).
  - unfold update_layer in E. apply bind_ok in E as (j1 & E & E'). injection E' as <-.
    destruct (update_keeps n surf away order ref unref js fuel j1 st1 Hn Ho Sd E1 No E) as ((W & A & L & S' & Lk' & B' & Ex' & R' & _) & Kl & _ & _ & _ & Ed & Kq & Kr).
    assert (Nd : no_dangling j1) by (destruct Q as [Q|Q]; [apply Kl, Ol, Q|auto]). assert (Sd' : sound n j1) by (split; auto).
    destruct (finish_layer n sides j1 Sd' Ed Ex' Ft) as (A1 & B1 & Rt). split; [exact A1|]. intros ->. destruct (Ol eq_refl) as [O1 R1]. split; [apply B1, Kl, O1|apply Rt, Kr; auto].
  - split; [apply split_layered; auto|discriminate].
Qed.

(** The mesh is complete: every face of every element has exactly one connection, and every connection is right. An
    element of the tree has an extruded element behind exactly those faces with no element of the tree and no boundary behind
    them; so only extruded elements touch the surface. As long as no layer is split, extruded elements are extruded from
    elements of the tree, and each is connected with the one it was extruded from. No pointer dangles, and the next update that loses no element ends. *)
Theorem layers_complete : forall n one js, 2 <= n -> layer_history n one js ->
  well_joined n js /\ no_gap n js /\ balanced n (j_st js) /\ extrudable n (j_st js) /\ linked (j_st js) /\ no_dangling js /\
  (forall i p x d s, on_leaf (j_st js) i p x -> d < n -> ((exists o, In (Ext i o d s) (j_links js)) <-> ~ covered_face n (j_st js) x d (sgn s))) /\
  (forall i, i < length (s_elems (j_st js)) -> (exists p x, on_leaf (j_st js) i p x) \/ is_extruded (j_st js) i) /\
  (one = true -> one_layer js /\ rooted js) /\
  forall surf away order ref unref sides fuel st1, some_orders order -> update_mesh fuel n surf ref unref (extr_pairs js) (j_st js) = Ok st1 -> no_orphans st1 ->
    exists fuel0, forall fuel, fuel0 <= fuel -> exists js', update_layer fuel n surf away order ref unref sides js = Ok js'.
Proof.
  intros n one js Hn H. apply (layer_reached n one js Hn) in H as [[Sd Ga Ex] Ol]. pose proof Sd as [S0 Lk Bl Rc Wj Al Ls Nd]. split; [exact Wj|]. split; [exact Ga|]. split; [exact Bl|]. split; [exact Ex|]. split; [exact Lk|]. split; [exact Nd|].
  split; [|split; [|split; [exact Ol|]]].
  - intros i p x d s O Hd. assert (C : connected js (i, d, s)) by (apply Ga; [eapply on_leaf_lt; eauto|exact Hd]). split.
    + intros (o & K). destruct (wj_right n js Wj _ K) as (_ & _ & [(p' & x' & O' & Nc)|X]); [|exfalso; eapply leaf_not_extruded; eauto].
      destruct (leaf_path n _ i p x S0 O) as (e & He & Pe). destruct (leaf_path n _ i p' x' S0 O') as (e' & He' & Pe'). assert (p' = p) by congruence. subst p'.
      assert (x' = x) by (destruct O as [[O _] _], O' as [[O' _] _]; congruence). subst x'. exact Nc.
    + intros Nc. eapply bare_face; eauto.
  - intros i Hi. destruct (sound_kind n js Sd i Hi) as [K|[K _]]; auto.
  - intros surf away order ref unref sides fuel st1 Ho E1 No. destruct (update_ends n surf away order ref unref js fuel st1 Hn Ho Sd E1 No) as (f0 & K). exists f0. intros k Hk. destruct (K k Hk) as (js' & E).
    unfold update_layer. rewrite E. cbn [bind]. eauto.
Qed.
Print Assumptions layers_complete.

(** Some connections of extruded elements, if they fit. *)
Definition bare_extruded (js : joined) (f : face) : bool :=
  match nth_error (s_elems (j_st js)) (fst (fst f)) with Some (mk_elem None _ _ _) => negb (recorded js f) | _ => false end.
Fixpoint all_different (fs : list face) : bool :=
  match fs with
  | [] => true
  | f :: fs' => negb (existsb (face_eqb f) fs') && all_different fs'
  end.
Definition if_fit (fss : list (list face)) (js : joined) : list (list face) :=
  if all_different (concat fss) && forallb (bare_extruded js) (concat fss) then fss else [].
Lemma all_different_spec fs : all_different fs = true -> NoDup fs.
Proof.
  induction fs as [|f fs IH]; cbn [all_different]; [constructor|]. intros H. apply andb_true_iff in H as [H1 H2]. constructor; [|auto]. intros K. apply negb_true_iff in H1.
  assert (existsb (face_eqb f) fs = true) by now apply existsb_face. congruence.
Qed.
Lemma if_fit_fitting fss : fitting (if_fit fss).
Proof.
  intros js. unfold if_fit, fits. destruct (all_different (concat fss)) eqn:E1; cbn [andb]; [|split; [constructor|intros f []]].
  destruct (forallb (bare_extruded js) (concat fss)) eqn:E2; [|split; [constructor|intros f []]]. split; [now apply all_different_spec|]. intros f H. rewrite forallb_forall in E2. specialize (E2 f H).
  unfold bare_extruded in E2. destruct (nth_error (s_elems (j_st js)) (fst (fst f))) as [[[p|] b r l]|] eqn:E; try discriminate. split; [eexists; split; [exact E|reflexivity]|].
  rewrite <- recorded_spec. apply negb_true_iff in E2. congruence.
Qed.

(** a new mesh, refined, then with a surface and a layer *)
Definition with_layer (surf : path -> bool) (start : path) (fine : list (list path)) (sides : list (list face)) : outcome joined :=
  let! js := refine_all fine (start_joined 2) in surface_layer 100 2 surf start no_away in_order (if_fit sides) js.
Lemma with_layer_history surf start fine sides js : with_layer surf start fine sides = Ok js -> layer_history 2 true js.
Proof.
  intros E. unfold with_layer in E. apply bind_ok in E as (j1 & E1 & E). apply refine_history in E1; [|constructor]. eapply layer_first; [exact E1|apply in_order_some|apply if_fit_fitting|exact E].
Qed.
Definition all_faces (js : joined) : list face := flat_map (fun i => map (fun ds => (i, fst ds, snd ds)) (faces_of 2)) (seq 0 (length (s_elems (j_st js)))).

(** The right half of the square is the surface again. Elements 2 and 3 are extruded from elements 0 and 1 and connected with
    each other; at their outer faces and at the boundary of the square are boundary connections. Then element 0 is refined:
    the four elements that replace it get two new extruded ones, 6 and 7; element 3 is kept, with the number 1. *)
Local Notation half_layer := (with_layer half [0] [[[]]] [[(2, 1, true); (3, 1, false)]]).
Definition half_update (js : joined) : outcome joined :=
  update_layer 30 2 half no_away in_order (at_paths (j_st js) [[0]]) never (if_fit [[(6, 1, true); (7, 1, false)]]) js.
Example half_layered :
  match half_layer with
  | Ok js => length (s_elems (j_st js)) = 4 /\ filter (fun f => negb (j_face js f)) (all_faces js) = [] /\
      j_links js = [Bnd 0 0 false; Bnd 0 1 false; Conf true 0 1 1 true; Bnd 1 0 false; Bnd 1 1 true; Ext 0 2 0 true; Ext 1 3 0 true;
                    Side [(2, 1, true); (3, 1, false)]; Side [(2, 0, true)]; Side [(2, 1, false)]; Side [(3, 0, true)]; Side [(3, 1, true)]] /\
      match half_update js with
      | Ok js' => map e_path (s_elems (j_st js')) = [Some [1]; None; Some [0; 1]; Some [0; 2]; Some [0; 3]; Some [0; 0]; None; None] /\
          filter (fun f => negb (j_face js' f)) (all_faces js') = [] /\
          j_links js' = [Bnd 0 0 false; Bnd 0 1 true; Ext 0 1 0 true; Side [(1, 0, true)]; Side [(1, 1, true)]; Bnd 5 0 false; Conf false 5 3 0 true; Bnd 5 1 false;
                         Conf false 5 2 1 true; Refd true 0 [2; 4] 1 false; Bnd 2 0 false; Conf true 2 4 0 true; Bnd 3 1 false; Conf true 3 4 1 true; Ext 3 6 0 true;
                         Ext 4 7 0 true; Side [(6, 1, true); (7, 1, false)]; Side [(1, 1, false)]; Side [(6, 0, true)]; Side [(6, 1, false)]; Side [(7, 0, true)]; Side [(7, 1, true)]]
      | _ => False
      end
  | _ => False
  end.
Proof. vm_compute. repeat split. Qed.

(** ** C85 *)

(** The full statement: no update leaves pointers to destroyed connections in [extrude_cons], however many layers there are
    and whatever is asked for. *)
Definition updates_point : Prop := forall n one js surf away order ref unref sides fuel st1 js', 2 <= n -> layer_history n one js -> some_orders order -> fitting sides ->
  update_mesh fuel n surf ref unref (extr_pairs js) (j_st js) = Ok st1 -> no_orphans st1 ->
  update_layer fuel n surf away order ref unref sides js = Ok js' -> no_dangling js'.

(** The layer is split into two. *)
Definition outer_faces (f : face) : bool := (snd (fst f) =? 0) && snd f.
Definition two_layers (js : joined) : joined := split_layers 2 outer_faces [if_fit [[(4, 1, true); (5, 1, false)]]] js.
Lemma two_layers_history js : layer_history 2 true js -> layer_history 2 false (two_layers js).
Proof. intros H. apply layer_split with (one := true); [exact H|]. constructor; [apply if_fit_fitting|constructor]. Qed.
Lemma orphans_check st : forallb (fun i => match nth_error (s_elems st) i with
    | Some e => match e_path e with Some p => (e_record e =? 2)%Z || match subtree (s_tree st) p with
                                              | Some x => match t_elem x with Some z => (z =? Z.of_nat i)%Z | None => false end
                                              | None => false end
                                  | None => true end
    | None => true end) (seq 0 (length (s_elems st))) = true -> no_orphans st.
Proof.
  intros H i e p Hi Hp R. rewrite forallb_forall in H. specialize (H i). rewrite Hi, Hp in H.
  assert (L : i < length (s_elems st)) by (apply nth_error_Some; congruence).
  specialize (H ltac:(apply in_seq; lia)). apply orb_prop in H as [H|H]; [apply Z.eqb_eq in H; contradiction|]. destruct (subtree (s_tree st) p) as [x|]; [|discriminate].
  destruct (t_elem x) as [z|] eqn:Ez; [|discriminate]. apply Z.eqb_eq in H. subst z. eauto.
Qed.

(** Only the outermost element 4 is asked to be refined. Its request is passed to element 2, from which it was extruded, but
    no further, because element 0 has already been given the request of element 2. Elements 2 and 4 are destroyed, and the
    pointer to the connection between elements 0 and 2, now destroyed too, is left in the list. *)
Definition split_update (js : joined) : outcome joined := update_layer 30 2 half no_away in_order (Nat.eqb 4) never (if_fit []) js.
Definition split_after (o : outcome joined) : outcome joined := let! js := o in Ok (two_layers js).
Lemma split_after_history o js : (forall j, o = Ok j -> layer_history 2 true j) -> split_after o = Ok js -> layer_history 2 false js.
Proof. intros H E. unfold split_after in E. apply bind_ok in E as (j & E & E'). injection E' as <-. apply two_layers_history. auto. Qed.
Example split_dangles :
  match split_after half_layer with
  | Ok js =>
      j_extr js = [Ext 0 2 0 true; Ext 1 3 0 true; Ext 2 4 0 true; Ext 3 5 0 true] /\
      match update_mesh 30 2 half (Nat.eqb 4) never (extr_pairs js) (j_st js) with
      | Ok st1 => forallb (fun i => match nth_error (s_elems st1) i with
          | Some e => match e_path e with Some p => (e_record e =? 2)%Z || match subtree (s_tree st1) p with
                                                    | Some x => match t_elem x with Some z => (z =? Z.of_nat i)%Z | None => false end
                                                    | None => false end
                                        | None => true end
          | None => true end) (seq 0 (length (s_elems st1))) = true
      | _ => False
      end /\
      match split_update js with
      | Ok js' => In (Ext 0 2 0 true) (j_extr js') /\ forallb (fun l => match l with Ext 0 o _ _ => negb (o =? 2) | _ => true end) (j_links js') = true
      | _ => False
      end
  | _ => False
  end.
Proof. vm_compute. repeat split. auto. Qed.

Lemma dangles_refutes js st1 js' : updates_point -> layer_history 2 false js -> update_mesh 30 2 half (Nat.eqb 4) never (extr_pairs js) (j_st js) = Ok st1 -> no_orphans st1 ->
  split_update js = Ok js' -> In (Ext 0 2 0 true) (j_extr js') -> forallb (fun l => match l with Ext 0 o _ _ => negb (o =? 2) | _ => true end) (j_links js') = true -> False.
Proof.
  intros H Hh E1 No E2 W2 W3. unfold split_update in E2.
  destruct (H 2 false js half no_away in_order (Nat.eqb 4) never (if_fit []) 30 st1 js' (le_n _) Hh in_order_some (if_fit_fitting _) E1 No E2 _ W2) as [K _].
  rewrite forallb_forall in W3. specialize (W3 _ K). discriminate.
Qed.
Theorem layers_point_refuted : ~ updates_point.
Proof.
  intros H. pose proof split_dangles as W. destruct (split_after half_layer) as [js| | |] eqn:E; try contradiction. apply (split_after_history _ js (with_layer_history _ _ _ _)) in E. destruct W as (_ & W1 & W2).
  destruct (update_mesh 30 2 half (Nat.eqb 4) never (extr_pairs js) (j_st js)) as [st1| | |] eqn:E1; try contradiction. apply orphans_check in W1.
  destruct (split_update js) as [js'| | |] eqn:E2; try contradiction. destruct W2 as [W2 W3]. exact (dangles_refutes js st1 js' H E E1 W1 E2 W2 W3).
Qed.
Print Assumptions layers_point_refuted.

(** What is true: with one layer, and with several if no refinement of extruded elements is asked for, all pointers are
    good, and the connections between elements and those extruded from them are all in the list. *)
Theorem layers_point_partial : forall n one js surf away order ref unref sides fuel st1 js', 2 <= n -> layer_history n one js -> some_orders order -> fitting sides ->
  update_mesh fuel n surf ref unref (extr_pairs js) (j_st js) = Ok st1 -> no_orphans st1 ->
  one = true \/ (forall i, is_extruded (j_st js) i -> ref i = true -> unref i = true) ->
  update_layer fuel n surf away order ref unref sides js = Ok js' -> no_dangling js' /\ listed js' /\ (one = true -> one_layer js' /\ rooted js').
Proof.
  intros n one js surf away order ref unref sides fuel st1 js' Hn H Ho Ft E1 No Q E.
  assert (K : layer_history n one js') by (eapply layer_next; eauto). apply (layer_reached n one js' Hn) in K as [[Sd _ _] Ol]. split; [apply Sd|]. split; [apply Sd|exact Ol].
Qed.
Print Assumptions layers_point_partial.
