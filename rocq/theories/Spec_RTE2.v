(** The boundary-value problem the layered reflection coefficient stands for.

    z is the depth below the surface of a layer, time dependence e^{i omega t}, horizontal
    wavenumber lamb.  In a layer of conductivity s and permeability m the transverse electric field
    F satisfies F'' = (lamb^2 + i omega m s) F; F and F'/m are continuous across every interface. *)
From Coq Require Import Reals List.
From Coquelicot Require Import Coquelicot.
From Verif Require Import Cplx.
Import ListNotations.
Open Scope R_scope.

(** F, with derivative G, solves the wave equation of the medium (s, m) at depth z *)
Definition te_wave (omega lamb : R) (s m : C) (F G : R -> C) (z : R) : Prop :=
  is_cderive F z (G z) /\
  is_cderive G z ((RtoC (lamb ^ 2) + Ci * RtoC omega * m * s) * F z)%C.

(** [te_ground omega lamb sigma mu thicknesses E H]: the stack carries a field that decays at depth
    and whose value and whose derivative over mu at its top are E and H *)
Inductive te_ground (omega lamb : R) : list C -> list C -> list R -> C -> C -> Prop :=
| te_basement s m F G :
    (forall z, 0 <= z -> te_wave omega lamb s m F G z) ->
    is_lim (fun z => Cmod (F z)) p_infty 0 ->
    te_ground omega lamb [s] [m] [] (F 0) (G 0 / m)%C
| te_layer s m h sigma mu thicknesses F G :
    (forall z, 0 <= z <= h -> te_wave omega lamb s m F G z) ->
    te_ground omega lamb sigma mu thicknesses (F h) (G h / m)%C ->
    te_ground omega lamb (s :: sigma) (m :: mu) (h :: thicknesses) (F 0) (G 0 / m)%C.

(** the field in the air (no conductivity, permeability mu_0): a downgoing wave of unit amplitude
    at the surface and an upgoing wave of amplitude r, F(z) = e^{- lamb z} + r e^{lamb z} for z <= 0 *)
Definition te_air (lamb : R) (r : C) (z : R) : C := (RtoC (exp (- lamb * z)) + r * RtoC (exp (lamb * z)))%C.
Definition te_air' (lamb : R) (r : C) (z : R) : C := (RtoC (- lamb * exp (- lamb * z)) + r * RtoC (lamb * exp (lamb * z)))%C.

(** r is a reflection coefficient of the stack: the field of the air continues into the ground *)
Definition reflects (mu_0 omega lamb : R) (sigma mu : list C) (thicknesses : list R) (r : C) : Prop :=
  te_ground omega lamb sigma mu thicknesses (te_air lamb r 0) (te_air' lamb r 0 / RtoC mu_0)%C.
