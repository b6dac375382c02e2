(** Vocabulary of C129: ground conductivity meters at low induction numbers. *)
From Coq Require Import Reals.
From Coquelicot Require Import Coquelicot.
From Verif Require Import Cplx.
Open Scope R_scope.

(** the squared induction number of a conductivity of modulus [sg] at distance [r]: omega mu sigma r^2 *)
Definition induction_number (f mu sg r : R) : R := 2 * PI * f * mu * sg * r ^ 2.
(** what a ground conductivity meter displays for the secondary field [Hs] and the primary field [Hp] of a transmitter at
    distance [r]: the quadrature of their ratio, times 4/(omega mu r^2)  (McNeill, Technical Note 6, 1980) *)
Definition apparent_conductivity (f mu r : R) (Hs Hp : C) : R := 4 / (2 * PI * f * mu * r ^ 2) * Im (Hs / Hp)%C.
