(** Theorems about the standard atmosphere. *)
From Coq Require Import Reals List Arith Lia Lra.
From Verif Require Import Outcome RSum Atmos_Model Atmos_Spec Atmos_Proofs.
Import ListNotations.
Local Open Scope R_scope.

(** ** altitudes *)
(** Altitudes from 0 to 80 km (and 1e-10 m beyond) are accepted, all others are refused. *)
Theorem atmosphere_domain h off :
  (-1e-10 < h < 80000 + 1e-10 -> exists dens pres, standard_atmosphere_geopot h off = Ok (dens, pres)) /\ (~ -1e-10 < h < 80000 + 1e-10 -> standard_atmosphere_geopot h off = Throw).
Proof. exact (atmosphere_domain_main h off). Qed.
Print Assumptions atmosphere_domain.

Theorem atmosphere_profile off : exists dens pres, profile (fun h => standard_atmosphere_geopot h off) 0 80000 dens pres.
Proof.
  exists (fun h => match standard_atmosphere_geopot h off with Ok (d, _) => d | _ => 0 end), (fun h => match standard_atmosphere_geopot h off with Ok (_, p) => p | _ => 0 end). intros h H.
  destruct (proj1 (atmosphere_domain_main h off) ltac:(lra)) as (d & p & ->). reflexivity.
Qed.
Print Assumptions atmosphere_profile.

(** ** the standard *)
(** Density and pressure are those of an ideal gas at the temperature of the ICAO standard plus the offset. *)
Theorem atmosphere_gas h off : regular h ->
  exists dens pres, standard_atmosphere_geopot h off = Ok (dens, pres) /\ 0 < pres /\ (icao_temperature h + off <> 0 -> pres = dens * gas_constant * (icao_temperature h + off)).
Proof. exact (atmosphere_gas_main h off). Qed.
Print Assumptions atmosphere_gas.

Theorem atmosphere_sea_level off : exists dens, standard_atmosphere_geopot 0 off = Ok (dens, sea_level_pressure).
Proof.
  destruct alt_values as (A0 & A1 & _). assert (IL : in_layer 0 0) by (split; [lia|]; cbn [Nat.add]; rewrite A0, A1; split; [lra|left; unfold epsilon; lra]).
  rewrite (geopot_layer 0 0 off IL), A0, Rminus_diag_eq, factor_0 by (reflexivity || lia). eexists. do 2 f_equal. unfold base_pres. cbn [rprod]. rewrite !Rmult_1_r. reflexivity.
Qed.
Print Assumptions atmosphere_sea_level.

(** The offset changes the density only. *)
Theorem atmosphere_offset h off d p d' p' : standard_atmosphere_geopot h 0 = Ok (d, p) -> standard_atmosphere_geopot h off = Ok (d', p') -> p' = p.
Proof.
  destruct (Rlt_dec (-1e-10) h) as [L|L]; [destruct (Rlt_dec h (80000 + 1e-10)) as [U|U]|]; [|intros E _; rewrite (proj2 (atmosphere_domain_main h 0)) in E by tauto; discriminate..].
  destruct alt_values as (A0 & _ & _ & _ & _ & _ & _ & A7). rewrite !geopot_eq by (unfold epsilon; lra). intros E E'. injection E as _ <-. injection E' as _ <-. reflexivity.
Qed.
Print Assumptions atmosphere_offset.

(** Inside the layers the pressure satisfies the hydrostatic equation, and it is continuous at the bases. *)
Theorem atmosphere_hydrostatic dens pres h : profile (fun h => standard_atmosphere_geopot h 0) 0 80000 dens pres -> inside_layer h -> derivable_pt_lim pres h (- (gravity0 * dens h)).
Proof. exact (atmosphere_hydrostatic_main dens pres h). Qed.
Print Assumptions atmosphere_hydrostatic.

Theorem atmosphere_continuous off dens pres b : profile (fun h => standard_atmosphere_geopot h off) 0 80000 dens pres -> In b bases -> continuity_pt pres b.
Proof. exact (atmosphere_continuous_main off dens pres b). Qed.
Print Assumptions atmosphere_continuous.

(** ** geometric altitude *)
Theorem atmosphere_geometric off dens pres z : profile (fun h => standard_atmosphere_geopot h off) 0 80000 dens pres -> 0 <= z <= 80000 ->
  let h := radius * z / (radius + z) in 0 <= h <= z /\ standard_atmosphere z off = Ok (dens h, pres h).
Proof. exact (atmosphere_geometric_main off dens pres z). Qed.
Print Assumptions atmosphere_geometric.

(** With gravity that decreases by the inverse square law, the hydrostatic equation holds in geometric altitude. *)
Theorem atmosphere_geometric_hydrostatic dens pres z : profile (fun z => standard_atmosphere z 0) 0 80000 dens pres -> 0 < z < 80000 -> inside_layer (radius * z / (radius + z)) -> derivable_pt_lim pres z (- (gravity z * dens z)).
Proof. exact (atmosphere_geometric_hydrostatic_main dens pres z). Qed.
Print Assumptions atmosphere_geometric_hydrostatic.

(** ** the pressure decreases *)
(** Full statement: the pressure decreases with altitude. *)
Definition pressure_decreases_statement : Prop :=
  forall off dens pres x y, profile (fun h => standard_atmosphere_geopot h off) 0 80000 dens pres -> 0 <= x -> x < y -> y <= 80000 -> pres y < pres x.
(** It is false: 1e-10 m below the base of a layer the factor of the next layer, larger than 1 there, is multiplied in as well. *)
Theorem atmosphere_jump off dens pres b : profile (fun h => standard_atmosphere_geopot h off) 0 80000 dens pres -> In b bases -> exists h, b - tolerance < h < b /\ pres (b - tolerance) < pres h.
Proof. exact (atmosphere_jump_main off dens pres b). Qed.
Print Assumptions atmosphere_jump.

Theorem atmosphere_decreasing_refuted : ~ pressure_decreases_statement.
Proof.
  intros F. destruct (atmosphere_profile 0) as (dens & pres & P). destruct (atmosphere_jump_main 0 dens pres 11000 P ltac:(cbn; tauto)) as (h & H & J). unfold tolerance in *. specialize (F 0 dens pres (11000 - 1e-10) h P ltac:(lra) ltac:(lra) ltac:(lra)). lra.
Qed.
Print Assumptions atmosphere_decreasing_refuted.

(** What holds: it decreases over all altitudes that are not within the tolerance below a base. *)
Theorem atmosphere_decreasing_partial off dens pres x y : profile (fun h => standard_atmosphere_geopot h off) 0 80000 dens pres -> regular x -> regular y -> x < y -> pres y < pres x.
Proof. exact (atmosphere_decreasing_main off dens pres x y). Qed.
Print Assumptions atmosphere_decreasing_partial.

(** ** examples *)
(** 15 degrees at sea level; at 5 km on a day 10 K warmer than standard *)
Example sea_level : standard_atmosphere_geopot 0 0 = Ok (101325 / 287.05287 / 288.15, 101325).
Proof.
  destruct (atmosphere_sea_level 0) as (d & E). destruct (atmosphere_gas 0 0) as (d' & p' & E' & _ & G).
  - split; [lra|]. unfold bases, tolerance. cbn [In]. intros b B. left. repeat (destruct B as [<-|B]; [lra|]). contradiction.
  - rewrite E in E'. injection E' as <- <-. assert (T : icao_temperature 0 = 288.15) by (unfold icao_temperature, passed, Rmax, Rmin; repeat (destruct (Rle_dec _ _); try lra)). rewrite T in G. specialize (G ltac:(lra)). unfold sea_level_pressure, gas_constant in *. rewrite E. do 2 f_equal. lra.
Qed.
Example five_km : exists p, standard_atmosphere_geopot 5000 10 = Ok (p / 287.05287 / 265.65, p) /\ p = 101325 * Rpower (255.65 / 288.15) (9.80665 / 0.0065 / 287.05287).
Proof.
  destruct alt_values as (A0 & A1 & _). destruct temp_values as (T0 & _). destruct lapse_values as (L0 & _). assert (IL : in_layer 0 5000) by (split; [lia|]; cbn [Nat.add]; rewrite A0, A1; split; [lra|left; unfold epsilon; lra]).
  exists (base_pres 0 * factor 0 (5000 - row_alt 0)). rewrite (geopot_layer 0 5000 10 IL). split.
  - do 2 f_equal. unfold specific_gas_air. replace (icao_temperature 5000 + 10) with 265.65; [reflexivity|]. unfold icao_temperature, passed, Rmax, Rmin. repeat (destruct (Rle_dec _ _); try lra).
  - unfold base_pres, atmosphere, factor. cbn [rprod]. rewrite Rmult_1_r, L0, T0, A0. destruct (Rlt_dec _ _) as [X|_]; [exfalso; unfold epsilon in X; rewrite Rabs_left in X by lra; lra|]. unfold std_grav, specific_gas_air.
    replace ((288.15 + -0.0065 * (5000 - 0)) / 288.15) with (255.65 / 288.15) by lra. replace (- (9.80665) / -0.0065 / 287.05287) with (9.80665 / 0.0065 / 287.05287) by lra. reflexivity.
Qed.
(** the tops of the layers are regular, and so is every altitude of the table *)
Example regular_tropopause : regular 11000 /\ regular (11000 - 0.001) /\ inside_layer 15000 /\ icao_temperature 15000 = 216.65.
Proof.
  repeat split; try lra; try (unfold bases, tolerance; cbn [In]; intros b B; repeat (destruct B as [<-|B]; [lra|]); contradiction). unfold icao_temperature, passed, Rmax, Rmin. repeat (destruct (Rle_dec _ _); try lra).
Qed.
