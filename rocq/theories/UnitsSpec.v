(** Dimensional analysis, independently of the code: a physical quantity is its value in CGS units and its dimension *)
From Coq Require Import Reals ZArith.
From Verif Require Import UnitsModel.
Local Open Scope R_scope.

(** x^n for integer n *)
Definition zpow (x : R) (n : Z) : R := if Z.ltb n 0 then / x ^ Z.to_nat (- n) else x ^ Z.to_nat n.
(** dimension: powers of length, mass, time *)
Record dim := mkDim { dL : Z; dM : Z; dT : Z }.
(** size of the unit of this dimension in a system with the given base units (in CGS) *)
Definition unit_size (L M T : R) (d : dim) : R := zpow L (dL d) * zpow M (dM d) * zpow T (dT d).
(** numerical value, in that system, of a quantity with the given value in CGS *)
Definition in_system (L M T : R) (d : dim) (cgs : R) : R := cgs / unit_size L M T d.
Definition internal (u : InternalUnits) (d : dim) (cgs : R) : R := in_system (length_unit u) (mass_unit u) (time_unit u) d cgs.
Definition LENGTH := mkDim 1 0 0.
Definition MASS := mkDim 0 1 0.
Definition TIME := mkDim 0 0 1.
Definition VELOCITY := mkDim 1 0 (-1).
Definition ANGVEL := mkDim 0 0 (-1).
Definition ANGMOM := mkDim 2 0 (-1).     (* per unit mass *)
Definition SURFDENS := mkDim (-2) 1 0.
Definition DENSITY := mkDim (-3) 1 0.
Definition GRAVCONST := mkDim 3 (-1) (-2).
Definition POTENTIAL := mkDim 2 0 (-2).
(** members of the class by the name of the unit *)
Inductive uname := uMsun | upc | uKpc | uMpc | uly | uyr | uMyr | uGyr | umas_per_yr | ukms | uKpc_kms | uMsun_per_pc2 | uMsun_per_pc3 | uMsun_per_Kpc2 | uMsun_per_Kpc3 | uGev_per_cm3.
Definition from_ (u : InternalUnits) (n : uname) : R := match n with
  | uMsun => from_Msun u | upc => from_pc u | uKpc => from_Kpc u | uMpc => from_Mpc u | uly => from_ly u | uyr => from_yr u | uMyr => from_Myr u | uGyr => from_Gyr u
  | umas_per_yr => from_mas_per_yr u | ukms => from_kms u | uKpc_kms => from_Kpc_kms u | uMsun_per_pc2 => from_Msun_per_pc2 u | uMsun_per_pc3 => from_Msun_per_pc3 u
  | uMsun_per_Kpc2 => from_Msun_per_Kpc2 u | uMsun_per_Kpc3 => from_Msun_per_Kpc3 u | uGev_per_cm3 => from_Gev_per_cm3 u end.
Definition to_ (u : InternalUnits) (n : uname) : R := match n with
  | uMsun => to_Msun u | upc => to_pc u | uKpc => to_Kpc u | uMpc => to_Mpc u | uly => to_ly u | uyr => to_yr u | uMyr => to_Myr u | uGyr => to_Gyr u
  | umas_per_yr => to_mas_per_yr u | ukms => to_kms u | uKpc_kms => to_Kpc_kms u | uMsun_per_pc2 => to_Msun_per_pc2 u | uMsun_per_pc3 => to_Msun_per_pc3 u
  | uMsun_per_Kpc2 => to_Msun_per_Kpc2 u | uMsun_per_Kpc3 => to_Msun_per_Kpc3 u | uGev_per_cm3 => to_Gev_per_cm3 u end.
Definition dim_of (n : uname) : dim := match n with
  | uMsun => MASS | upc | uKpc | uMpc | uly => LENGTH | uyr | uMyr | uGyr => TIME | umas_per_yr => ANGVEL | ukms => VELOCITY | uKpc_kms => ANGMOM
  | uMsun_per_pc2 | uMsun_per_Kpc2 => SURFDENS | uMsun_per_pc3 | uMsun_per_Kpc3 | uGev_per_cm3 => DENSITY end.
(** the value of one such unit in CGS: from the definitions of the parsec, the solar mass, the Julian year, the speed of light *)
Definition cgs_of (n : uname) : R := match n with
  | uMsun => 1.988409871e33 | upc => 3.0856775815e18 | uKpc => 3.0856775815e21 | uMpc => 3.0856775815e24 | uly => 2.99792458e10 * 31557600 | uyr => 31557600 | uMyr => 31557600e6 | uGyr => 31557600e9
  | umas_per_yr => 3.141593 / 648000000 / 31557600   (* thousandth of the arcsecond; the code has 7 digits of pi, see C22_arcsec *)
  | ukms => 100000 | uKpc_kms => 3.0856775815e21 * 100000
  | uMsun_per_pc2 => 1.988409871e33 / 3.0856775815e18 ^ 2 | uMsun_per_pc3 => 1.988409871e33 / 3.0856775815e18 ^ 3
  | uMsun_per_Kpc2 => 1.988409871e33 / 3.0856775815e21 ^ 2 | uMsun_per_Kpc3 => 1.988409871e33 / 3.0856775815e21 ^ 3 | uGev_per_cm3 => 1.782662e-24 end.
