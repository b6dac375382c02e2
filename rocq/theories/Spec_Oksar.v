(** What C76, C81, C91 and C92 refer to: Okada's closed form for the surface displacement of
    a rectangular dislocation, written from Y. Okada, "Surface deformation due to shear and
    tensile faults in a half-space", BSSA 75 (1985), eqs. (25)-(26), (28)-(29). *)
From Coq Require Import Reals List Bool Arith.
From Verif Require Import Numpy.
Import ListNotations.
Open Scope R_scope.

(** ** Okada (1985) *)
Section Okada.
(** k = mu / (lambda + mu), sine and cosine of the dip *)
Variables k sd cd : R.
Variables xi eta q : R.
Definition o_R : R := sqrt (xi ^ 2 + eta ^ 2 + q ^ 2).
Definition o_X : R := sqrt (xi ^ 2 + q ^ 2).
Definition o_y : R := eta * cd + q * sd.
Definition o_d : R := eta * sd - q * cd.
(** the arctangent of eq. (25); rule (i): 0 when q = 0 *)
Definition o_theta : R := if Req_EM_T q 0 then 0 else atan (xi * eta / (q * o_R)).
(** eqs. (28)-(29); rule (ii): I5 = 0 when xi = 0 and cos <> 0 *)
Definition o_I5 : R :=
  if Req_EM_T cd 0 then - k * (xi * sd / (o_R + o_d))
  else if Req_EM_T xi 0 then 0
  else k * (2 / cd) * atan ((eta * (o_X + q * cd) + o_X * (o_R + o_X) * sd) / (xi * (o_R + o_X) * cd)).
Definition o_I4 : R :=
  if Req_EM_T cd 0 then - k * (q / (o_R + o_d))
  else k * (1 / cd) * (ln (o_R + o_d) - sd * ln (o_R + eta)).
Definition o_I3 : R :=
  if Req_EM_T cd 0 then k / 2 * (eta / (o_R + o_d) + o_y * q / (o_R + o_d) ^ 2 - ln (o_R + eta))
  else k * (1 / cd * (o_y / (o_R + o_d)) - ln (o_R + eta)) + sd / cd * o_I4.
Definition o_I2 : R := k * (- ln (o_R + eta)) - o_I3.
Definition o_I1 : R :=
  if Req_EM_T cd 0 then - k / 2 * (xi * q / (o_R + o_d) ^ 2)
  else k * (- (1 / cd) * (xi / (o_R + o_d))) - sd / cd * o_I5.
(** eq. (25), strike slip, without the factor -U1/(2 pi) *)
Definition o_strike : R * R * R :=
  (xi * q / (o_R * (o_R + eta)) + o_theta + o_I1 * sd,
   o_y * q / (o_R * (o_R + eta)) + q * cd / (o_R + eta) + o_I2 * sd,
   o_d * q / (o_R * (o_R + eta)) + q * sd / (o_R + eta) + o_I4 * sd).
(** eq. (26), dip slip, without the factor -U2/(2 pi) *)
Definition o_dip : R * R * R :=
  (q / o_R - o_I3 * (sd * cd),
   o_y * q / (o_R * (o_R + xi)) + cd * o_theta - o_I1 * (sd * cd),
   o_d * q / (o_R * (o_R + xi)) + sd * o_theta - o_I5 * (sd * cd)).
End Okada.

Definition fst3 (v : R * R * R) : R := fst (fst v).
Definition snd3 (v : R * R * R) : R := snd (fst v).
Definition trd3 (v : R * R * R) : R := snd v.
(** Chinnery's notation f(xi, eta)|| over the four corners of the fault *)
Definition chinnery (f : R -> R -> R) (X p al1 al2 aw1 aw2 : R) : R :=
  f (X - al1) (p - aw1) - f (X - al1) (p - aw2) - f (X - al2) (p - aw1) + f (X - al2) (p - aw2).
(** The displacement at the surface point (X, Y) of a fault al1..al2 along strike and
    aw1..aw2 along dip (measured from the surface), slips U1 and U2; tp stands for 2 pi *)
Definition okada (tp k sd cd : R) (P : R * R) (al1 al2 aw1 aw2 U1 U2 : R) : R * R * R :=
  let (X, Y) := P in
  let p := Y * cd in
  let q := Y * sd in
  let part c := - U1 / tp * chinnery (fun xi eta => c (o_strike k sd cd xi eta q)) X p al1 al2 aw1 aw2
              + - U2 / tp * chinnery (fun xi eta => c (o_dip k sd cd xi eta q)) X p al1 al2 aw1 aw2 in
  (part fst3, part snd3, part trd3).

(** ** the solver's rounding of small coordinates *)
(** the coordinates (xi, eta, q) of a station relative to the corner (al, aw) *)
Definition coords (sd cd : R) (P : R * R) (al aw : R) : list R :=
  [fst P - al; snd P * cd - aw; snd P * sd].
(** no coordinate of a station of the batch is non-zero yet below 1e-6, or below 1e-6 times
    another coordinate of any station of the batch, at any corner *)
Definition nothing_rounded (sd cd : R) (B : list (R * R)) (al1 al2 aw1 aw2 : R) : Prop :=
  forall P al aw x, In P B -> In al [al1; al2] -> In aw [aw1; aw2] -> In x (coords sd cd P al aw) ->
  x = 0 \/
  (1 / 1000000 <= Rabs x /\
   forall P' y, In P' B -> In y (coords sd cd P' al aw) -> 1 / 1000000 * Rabs y <= Rabs x).
(** sine and cosine of the dip; a dip within 1e-6 of the vertical counts as vertical *)
Definition dip_sin_cos (delta sd cd : R) : Prop :=
  (1 / 1000000 <= Rabs (cos delta) /\ sd = sin delta /\ cd = cos delta) \/
  (Rabs (cos delta) < 1 / 1000000 /\ cd = 0 /\ ((0 < sin delta /\ sd = 1) \/ (sin delta < 0 /\ sd = -1))).

(** ** the simulation grid as documented: origin + s U + t V, s and t evenly spaced *)
Definition fraction (i n : nat) : R := INR i / INR (n - 1).
Definition along (O U V : R * R) (s t : R) : R * R :=
  (fst O + s * fst U + t * fst V, snd O + s * snd U + t * snd V).

(** a plane vector turned anticlockwise by the angle a *)
Definition turned (a : R) (v : R * R) : R * R := (cos a * fst v - sin a * snd v, sin a * fst v + cos a * snd v).
