(** MagneticDipoleHalfSpace.magnetic_field in floating point with infinities and not-a-number.  A float is a number, an infinity or
    nan; zeros carry no sign.  Every arithmetic result goes through [rd], which may round and may overflow, and is not otherwise
    specified.  Complex numbers are pairs.  numpy's complex product and sum are its four products and two sums
    (npy_loops: the C formula without C99 recovery); its complex division, power, square root and exponential, the real
    elementary functions, and scipy's iv and kv are arguments. *)
From Coq Require Import Reals List.
From Coquelicot Require Import Coquelicot.
From Verif Require Import Vec3 Cplx Numpy Model_FDEM.
Open Scope R_scope.

Inductive flt : Type := Fin (x : R) | Inf (neg : bool) | NaN.
Definition fc : Type := flt * flt.

Record lib : Type := Lib {
  rd : R -> flt;
  l_pi : R; l_mu0 : R;                                   (* np.pi and scipy.constants.mu_0 *)
  l_sigma_hat : fdem -> fc;                              (* self.sigma_hat, base.py l.256-262 *)
  l_norm : flt -> flt -> flt; l_pow : flt -> nat -> flt; (* np.linalg.norm on two components, ** on reals *)
  l_atan2 : flt -> flt -> flt; l_cos : flt -> flt; l_sin : flt -> flt;
  l_csqrt : fc -> fc; l_cexp : fc -> fc; l_cpow : fc -> nat -> fc; l_cdiv : fc -> fc -> fc;
  l_iv : nat -> fc -> fc; l_kv : nat -> fc -> fc }.

Section Lib.
  Variable L : lib.
  Definition sgn_neg (x : R) : bool := if Rlt_dec x 0 then true else false.
  (** IEEE 754 arithmetic on the special values; [rd L] on numbers *)
  Definition fneg (a : flt) : flt := match a with Fin x => Fin (- x) | Inf b => Inf (negb b) | NaN => NaN end.
  Definition fadd (a b : flt) : flt :=
    match a, b with
    | NaN, _ => NaN | _, NaN => NaN
    | Fin x, Fin y => rd L (x + y)
    | Inf s, Inf t => if Bool.eqb s t then Inf s else NaN
    | Inf s, Fin _ => Inf s | Fin _, Inf t => Inf t
    end.
  Definition fsub (a b : flt) : flt := fadd a (fneg b).
  Definition fmul (a b : flt) : flt :=
    match a, b with
    | NaN, _ => NaN | _, NaN => NaN
    | Fin x, Fin y => rd L (x * y)
    | Inf s, Inf t => Inf (xorb s t)
    | Inf s, Fin y => if Req_EM_T y 0 then NaN else Inf (xorb s (sgn_neg y))
    | Fin x, Inf t => if Req_EM_T x 0 then NaN else Inf (xorb t (sgn_neg x))
    end.
  Definition fdiv (a b : flt) : flt :=
    match a, b with
    | NaN, _ => NaN | _, NaN => NaN
    | Fin x, Fin y => if Req_EM_T y 0 then (if Req_EM_T x 0 then NaN else Inf (sgn_neg x)) else rd L (x / y)
    | Inf _, Inf _ => NaN
    | Inf s, Fin y => Inf (xorb s (sgn_neg y)) | Fin _, Inf _ => Fin 0
    end.
  (** numpy on complex128; a real operand is cast to a + 0j *)
  Definition cre (a : flt) : fc := (a, Fin 0).
  Definition cadd (a b : fc) : fc := (fadd (fst a) (fst b), fadd (snd a) (snd b)).
  Definition csub (a b : fc) : fc := (fsub (fst a) (fst b), fsub (snd a) (snd b)).
  Definition cmul (a b : fc) : fc :=
    (fsub (fmul (fst a) (fst b)) (fmul (snd a) (snd b)), fadd (fmul (fst a) (snd b)) (fmul (snd a) (fst b))).
  Definition cj (x : R) : fc := (Fin 0, Fin x).          (* a literal xj *)
  Definition cn (x : R) : fc := cre (Fin x).             (* a real literal *)

  (** halfspace.py l.87-90: k *)
  Definition s_k (s : mhalf) : fc :=
    let w := fmul (fmul (Fin 2) (Fin (l_pi L))) (Fin (fd_freq (mh_med s))) in
    l_csqrt L (cmul (cmul (cmul (cj (-1)) (cre w)) (cn (l_mu0 L))) (l_sigma_hat L (mh_med s))).
  (** l.92-95: x, y, r *)
  Definition s_x (s : mhalf) (xy : vec3) : flt := fsub (Fin (vx xy)) (Fin (vx (mh_loc s))).
  Definition s_y (s : mhalf) (xy : vec3) : flt := fsub (Fin (vy xy)) (Fin (vy (mh_loc s))).
  Definition s_r (s : mhalf) (xy : vec3) : flt := l_norm L (s_x s xy) (s_y s xy).
  (** l.103: alpha = 1j*k*r/2. *)
  Definition s_alpha (s : mhalf) (xy : vec3) : fc := l_cdiv L (cmul (cmul (cj 1) (s_k s)) (cre (s_r s xy))) (cn 2).

  (** l.87-138 for one frequency and one point; [secondary] is [field == "secondary"] *)
  Definition s_H (s : mhalf) (secondary : bool) (xy : vec3) : fc * fc * fc :=
    let k := s_k s in let x := s_x s xy in let y := s_y s xy in let r := s_r s xy in
    let src_x := vx (mh_orient s) in let src_y := vy (mh_orient s) in let src_z := vz (mh_orient s) in
    let alpha := s_alpha s xy in
    let IK1 := cmul (l_iv L 1 alpha) (l_kv L 1 alpha) in
    let IK2 := cmul (l_iv L 2 alpha) (l_kv L 2 alpha) in
    let k2 := l_cpow L k 2 in let k3 := l_cpow L k 3 in
    let r2 := l_pow L r 2 in let r3 := l_pow L r 3 in let r4 := l_pow L r 4 in let r5 := l_pow L r 5 in
    let e := l_cexp L (cmul (cmul (cj (-1)) k) (cre r)) in
    let em := (cn 0, cn 0, cn 0) in
    let em :=
      if Reqb src_z 0 then em
      else
        let ez := cmul (l_cdiv L (cre (fmul (Fin src_z) (Fin 2))) (cmul k2 (cre r5)))
                       (csub (cn 9) (cmul (csub (csub (cadd (cn 9) (cmul (cmul (cj 9) k) (cre r))) (cmul (cmul (cn 4) k2) (cre r2))) (cmul (cmul (cj 1) k3) (cre r3))) e)) in
        let Hr := cmul (l_cdiv L k2 (cre r)) (csub IK1 IK2) in
        let angle := l_atan2 L y x in
        (cadd (fst (fst em)) (cmul (cre (fmul (Fin src_z) (l_cos L angle))) Hr),
         cadd (snd (fst em)) (cmul (cre (fmul (Fin src_z) (l_sin L angle))) Hr),
         cadd (snd em) ez) in
    let phi := cmul (l_cdiv L (cn 2) (cmul k2 (cre r4)))
                    (csub (cadd (cn 3) (cmul k2 (cre r2))) (cmul (csub (cadd (cn 3) (cmul (cmul (cj 3) k) (cre r))) (cmul k2 (cre r2))) e)) in
    let dphi := cmul (l_cdiv L (cn 2) (cmul k2 (cre r5)))
                     (cadd (csub (cmul (cmul (cn (-2)) k2) (cre r2)) (cn 12))
                           (cmul (cadd (cadd (csub (cmul (cmul (cj (-1)) k3) (cre r3)) (cmul (cmul (cn 5) k2) (cre r2))) (cmul (cmul (cj 12) k) (cre r))) (cn 12)) e)) in
    let em :=
      if Reqb src_x 0 then em
      else
        let a := cre (fmul (Fin src_x) (fdiv (Fin (-1)) r3)) in
        let b := cre (fmul (fmul (fmul (Fin src_x) (fdiv (Fin 1) r3)) x) y) in
        (cadd (fst (fst em)) (cmul a (cadd (cmul (cre (l_pow L y 2)) phi) (cmul (cre (fmul (l_pow L x 2) r)) dphi))),
         cadd (snd (fst em)) (cmul b (csub phi (cmul (cre r) dphi))),
         csub (snd em) (cmul (cmul (cn src_x) (l_cdiv L (cmul k2 (cre x)) (cre r2))) (csub IK1 IK2))) in
    let em :=
      if Reqb src_y 0 then em
      else
        let a := cre (fmul (fmul (fmul (Fin src_y) (fdiv (Fin 1) r3)) x) y) in
        let b := cre (fmul (Fin src_y) (fdiv (Fin (-1)) r3)) in
        (cadd (fst (fst em)) (cmul a (csub phi (cmul (cre r) dphi))),
         cadd (snd (fst em)) (cmul b (cadd (cmul (cre (l_pow L x 2)) phi) (cmul (cre (fmul (l_pow L y 2) r)) dphi))),
         csub (snd em) (cmul (cmul (cn src_y) (l_cdiv L (cmul k2 (cre y)) (cre r2))) (csub IK1 IK2))) in
    let em :=
      if secondary then
        let mdotr := fadd (fmul (Fin src_x) x) (fmul (Fin src_y) y) in
        (csub (fst (fst em)) (cre (fsub (fdiv (fmul (fmul (Fin 3) x) mdotr) r5) (fdiv (Fin src_x) r3))),
         csub (snd (fst em)) (cre (fsub (fdiv (fmul (fmul (Fin 3) y) mdotr) r5) (fdiv (Fin src_y) r3))),
         csub (snd em) (cre (fdiv (fneg (Fin src_z)) r3)))
      else em in
    let m := cre (fdiv (Fin (mh_moment s)) (fmul (Fin 4) (Fin (l_pi L)))) in
    (cmul m (fst (fst em)), cmul m (snd (fst em)), cmul m (snd em)).
End Lib.
