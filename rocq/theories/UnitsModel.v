(** Unit systems: src/units.h.  Exact real arithmetic; literals digit by digit. *)
From Coq Require Import Reals.
Local Open Scope R_scope.

(** units.h:65-85 base units in CGS *)
Definition pc : R := 3.0856775815e18.
Definition Msun : R := 1.988409871e33.
Definition yr : R := 60 * 60 * 24 * 365.25.
Definition kms : R := 1e5.
Definition Kpc : R := 1e3 * pc.
Definition Mpc : R := 1e6 * pc.
Definition c_light : R := 2.99792458e10.
Definition arcsec : R := 3.141593 / 180 / 60 / 60.
Definition mas_per_yr : R := 1e-3 * arcsec / yr.
Definition ly : R := c_light * yr.
Definition Myr : R := 1e6 * yr.
Definition Gyr : R := 1e9 * yr.
Definition Kpc_kms : R := Kpc * kms.
Definition Msun_per_pc2 : R := Msun / (pc * pc).
Definition Msun_per_pc3 : R := Msun / (pc * pc * pc).
Definition Msun_per_Kpc2 : R := Msun / (Kpc * Kpc).
Definition Msun_per_Kpc3 : R := Msun / (Kpc * Kpc * Kpc).
Definition Gev_per_cm3 : R := 1.782662e-24.
Definition Grav : R := 6.6743e-8.

(** units.h:108-145 data members of InternalUnits *)
Record InternalUnits := mkInternal { length_unit : R; mass_unit : R; time_unit : R;
  from_Msun : R; from_pc : R; from_Kpc : R; from_Mpc : R; from_ly : R; from_yr : R; from_Myr : R; from_Gyr : R; from_mas_per_yr : R; from_kms : R; from_Kpc_kms : R;
  from_Msun_per_pc2 : R; from_Msun_per_pc3 : R; from_Msun_per_Kpc2 : R; from_Msun_per_Kpc3 : R; from_Gev_per_cm3 : R;
  to_Msun : R; to_pc : R; to_Kpc : R; to_Mpc : R; to_ly : R; to_yr : R; to_Myr : R; to_Gyr : R; to_mas_per_yr : R; to_kms : R; to_Kpc_kms : R;
  to_Msun_per_pc2 : R; to_Msun_per_pc3 : R; to_Msun_per_Kpc2 : R; to_Msun_per_Kpc3 : R; to_Gev_per_cm3 : R }.
(** units.h:148-183 constructor; members are initialised in the order of their declaration *)
Definition makeInternal (length_unit_in_cm time_unit_in_s : R) : InternalUnits :=
  let length_unit := length_unit_in_cm in
  let mass_unit := length_unit_in_cm * length_unit_in_cm * length_unit_in_cm / time_unit_in_s / time_unit_in_s / Grav in
  let time_unit := time_unit_in_s in
  let fMsun := Msun / mass_unit in
  let fpc := pc / length_unit in
  let fKpc := Kpc / length_unit in
  let fMpc := Mpc / length_unit in
  let fly := ly / length_unit in
  let fyr := yr / time_unit in
  let fMyr := Myr / time_unit in
  let fGyr := Gyr / time_unit in
  let fmas := mas_per_yr * time_unit in
  let fkms := kms / (length_unit / time_unit) in
  let fKpc_kms := Kpc_kms / (length_unit * length_unit / time_unit) in
  let fMpc2 := Msun_per_pc2 / (mass_unit / length_unit / length_unit) in
  let fMpc3 := Msun_per_pc3 / (mass_unit / length_unit / length_unit / length_unit) in
  let fMKpc2 := Msun_per_Kpc2 / (mass_unit / length_unit / length_unit) in
  let fMKpc3 := Msun_per_Kpc3 / (mass_unit / length_unit / length_unit / length_unit) in
  let fGev := Gev_per_cm3 / (mass_unit / length_unit / length_unit / length_unit) in
  mkInternal length_unit mass_unit time_unit fMsun fpc fKpc fMpc fly fyr fMyr fGyr fmas fkms fKpc_kms fMpc2 fMpc3 fMKpc2 fMKpc3 fGev
    (1 / fMsun) (1 / fpc) (1 / fKpc) (1 / fMpc) (1 / fly) (1 / fyr) (1 / fMyr) (1 / fGyr) (1 / fmas) (1 / fkms) (1 / fKpc_kms) (1 / fMpc2) (1 / fMpc3) (1 / fMKpc2) (1 / fMKpc3) (1 / fGev).
(** units.h:187-193 *)
Definition galactic_Myr : InternalUnits := makeInternal Kpc Myr.
Definition galactic_kms : InternalUnits := makeInternal Kpc (Kpc / kms).
Definition weird_units : InternalUnits := makeInternal (2.71828 * pc) (42 * ly / kms).

(** units.h:212-228 ExternalUnits *)
Record ExternalUnits := mkExternal { lengthUnit : R; velocityUnit : R; massUnit : R; timeUnit : R }.
Definition trivialExternal : ExternalUnits := mkExternal 1 1 1 1.
Definition makeExternal (unit : InternalUnits) (l v m : R) : ExternalUnits :=
  let lu := from_pc unit * l / pc in
  let vu := from_kms unit * v / kms in
  let mu := from_Msun unit * m / Msun in
  mkExternal lu vu mu (lu / vu).
