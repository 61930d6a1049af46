(** Property theorems: C22 (history monitors). *)
From Coq Require Import Reals ZArith List Lia Lra.
From Verif Require Import Outcome ListUtil History_Model History_Spec History_Proofs.
Import ListNotations.
Local Open Scope R_scope.

(** C22. For any window fraction in (0, 1), any buffer size and any sequence of samples (with nonnegative iteration
    numbers and finite values) all calls terminate normally, and afterwards there is a splitting of the recorded samples
    into forgotten and kept ones such that the reported bounds are exactly the extrema of the kept ones. The kept ones
    include the latest recorded sample [q], fit into the buffer and lie within the window before [q]; every forgotten
    one lies outside the window up to one growth factor; and ([thinned]) a sample was not recorded only if it came less
    than one growth factor after the last recorded one. *)
Theorem history_bounds : forall w N l, 0 < w < 1 -> (0 < N)%nat ->
  Forall (fun s => (0 <= fst s)%Z /\ - huge <= snd s <= huge) l ->
  exists F m, (forall fuel, (F <= fuel)%nat -> add_samples fuel (new_monitor w N) l = Ok m) /\
    (l = [] -> m_min m = - huge /\ m_max m = huge) /\
    (l <> [] -> exists dropped kept q, thinned (factor w N) l (dropped ++ kept ++ [q]) /\ (length (kept ++ [q]) <= N)%nat /\
       is_minimum (m_min m) (kept ++ [q]) /\ is_maximum (m_max m) (kept ++ [q]) /\
       Forall (fun s => (1 - w) * IZR (fst q) <= IZR (fst s)) (kept ++ [q]) /\
       Forall (fun d => IZR (fst d) < factor w N * (1 - w) * IZR (fst q)) dropped).
Proof. intros w N l. exact (history_main w N l). Qed.
Print Assumptions history_bounds.

(** C22. The growth factor is more than one, and as many growth factors as the buffer has room for span the window. *)
Theorem history_factor : forall w N, 0 < w < 1 -> (0 < N)%nat -> 1 < factor w N /\ factor w N ^ N * (1 - w) = 1.
Proof. intros w N W H. split; [exact (factor_gt_1 w N W H)|exact (factor_pow w N W H)]. Qed.
Print Assumptions history_factor.

(** A concrete run: half window, buffer of one sample: iterations 0, 1 and 2 are recorded, each evicting the previous
    one; iteration 3 is skipped (the threshold is 4). *)
Example history_example : exists m, forall fuel, (4 <= fuel)%nat ->
  add_samples fuel (new_monitor (1/2) 1) [(0%Z, 7); (1%Z, 5); (2%Z, 6); (3%Z, 9)] = Ok m /\ m_min m = 6 /\ m_max m = 6 /\ m_threshold m = 4.
Proof.
  assert (F : factor (1/2) 1 = 2).
  { pose proof (factor_pow (1/2) 1 ltac:(lra) ltac:(lia)) as E. cbn [pow] in E. lra. }
  assert (H6 : 9 <= huge). { unfold huge. apply IZR_le. vm_compute. discriminate. }
  eexists. intros fuel Hf. do 4 (destruct fuel as [|fuel]; [lia|]). Local Opaque huge factor.
  Ltac cmp := repeat match goal with
    | |- context [Rltb ?a ?b] => first [assert (Rltb a b = true) as -> by (apply Rltb_true; lra) | assert (Rltb a b = false) as -> by (apply Rltb_false; lra)]
    | |- context [Rleb ?a ?b] => first [assert (Rleb a b = true) as -> by (apply Rleb_true; lra) | assert (Rleb a b = false) as -> by (apply Rleb_false; lra)]
    end.
  cbn [add_samples]. do 4 (unfold add_sample at 1; do 5 (cbn; rewrite ?F; cmp)).
  split; [reflexivity|]. cbn. repeat split; [apply Rmin_right; lra|apply Rmax_right; lra|lra].
Qed.
