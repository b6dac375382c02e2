(** The circular loop's components in its own cylindrical frame in binary floating point with infinities (C148).  Numbers are rounded as in
    Model_Float; [flt] of Model_Special adds the infinities and nan, because scipy's ellipk is infinite at 1.  The library's power [pow]
    (of Python floats, and of arrays for exponents other than 2) and the elliptic integrals [ek], [kk] are arguments of the model. *)
From Coq Require Import Reals.
From Verif Require Import Vec3 Numpy Model_Float Model_Special.
Open Scope R_scope.

(** IEEE 754 arithmetic, the operations of Model_Special with rounding [fl] *)
Definition xadd (a b : flt) : flt :=
  match a, b with
  | NaN, _ => NaN | _, NaN => NaN
  | Fin x, Fin y => Fin (fl (x + y))
  | Inf s, Inf t => if Bool.eqb s t then Inf s else NaN
  | Inf s, Fin _ => Inf s | Fin _, Inf t => Inf t
  end.
Definition xsub (a b : flt) : flt := xadd a (fneg b).
Definition xmul (a b : flt) : flt :=
  match a, b with
  | NaN, _ => NaN | _, NaN => NaN
  | Fin x, Fin y => Fin (fl (x * y))
  | Inf s, Inf t => Inf (xorb s t)
  | Inf s, Fin y => if Req_EM_T y 0 then NaN else Inf (xorb s (sgn_neg y))
  | Fin x, Inf t => if Req_EM_T x 0 then NaN else Inf (xorb t (sgn_neg x))
  end.
Definition xdiv (a b : flt) : flt :=
  match a, b with
  | NaN, _ => NaN | _, NaN => NaN
  | Fin x, Fin y => if Req_EM_T y 0 then (if Req_EM_T x 0 then NaN else Inf (sgn_neg x)) else Fin (fl (x / y))
  | Inf _, Inf _ => NaN
  | Inf s, Fin y => Inf (xorb s (sgn_neg y)) | Fin _, Inf _ => Fin 0
  end.

(** em/static/wholespace.py l.588-592, 721-725 *)
Definition fcl_C (mu current : R) : R := fl (fl (mu * current) / fpi).
Definition falpha_sq (a rho z : R) : R := fl (fsq (fl (a - rho)) + fsq z).
Definition fbeta_sq (a rho z : R) : R := fl (fsq (fl (a + rho)) + fsq z).
Definition fbeta (a rho z : R) : R := fl (sqrt (fbeta_sq a rho z)).
(** l.594, 726; beta_sq is not zero for a positive radius *)
Definition fk_sq (a rho z : R) : R := fl (1 - fl (falpha_sq a rho z / fbeta_sq a rho z)).
(** l.602, 734 *)
Definition fsmall_rho (pow : R -> nat -> R) (a rho z : R) : bool := Rltb (fl (fsq rho / fl (pow a 2%nat + fsq z))) (fl (1 / 10 ^ 6)).
(** l.604-624: A_cyl[:, 1] *)
Definition fcl_A_phi (pow : R -> nat -> R) (ek kk : R -> flt) (a mu current rho z : R) : flt :=
  let C := fcl_C mu current in
  let k_sq := fk_sq a rho z in
  if fsmall_rho pow a rho z then
    let temp := fl (sqrt (fl (pow a 2%nat + fsq z))) in
    let a2 := pow a 2%nat in
    xmul (Fin (fl (fpi * C)))
      (xadd (xdiv (Fin (fl (rho * a2))) (Fin (fl (4 * pow temp 3%nat))))
            (xdiv (xdiv (Fin (fl (fl (pow rho 3%nat * 3) * a2))) (Fin (fl (a2 - fl (4 * fsq z)))))
                  (Fin (fl (32 * pow (fl (sqrt (fl (a2 + fsq z)))) 7%nat)))))
  else
    xmul (xdiv (Fin C) (Fin (fl (fl (2 * rho) * fbeta a rho z))))
      (xsub (xmul (Fin (fl (fl (pow a 2%nat + fsq rho) + fsq z))) (kk k_sq)) (xmul (Fin (fbeta_sq a rho z)) (ek k_sq))).
(** l.744-746: B_cyl[:, 2] *)
Definition fcl_B_z (pow : R -> nat -> R) (ek kk : R -> flt) (a mu current rho z : R) : flt :=
  let k_sq := fk_sq a rho z in
  xmul (xdiv (Fin (fcl_C mu current)) (Fin (fl (fl (2 * falpha_sq a rho z) * fbeta a rho z))))
    (xadd (xmul (Fin (fl (fl (pow a 2%nat - fsq rho) - fsq z))) (ek k_sq)) (xmul (Fin (falpha_sq a rho z)) (kk k_sq))).
