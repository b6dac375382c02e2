(** Array evaluation of the harmonic dipoles over a half-space and over a layered earth: the
    statements of the methods on numpy arrays, with broadcasting, up to the final squeeze.  The
    scalar formulas are those of Model_FDEM.v and Model_Layered.v.  Consecutive elementwise
    operations on the same operands are one operation. *)
From Coq Require Import String Reals List Arith Bool.
From Coquelicot Require Import Coquelicot.
From Verif Require Import Vec3 Cplx Numpy Model_Utils Model_Spatial Model_Static Model_FDEM Model_TDEM Model_Layered Model_Arrays Model_Arrays2.
Import ListNotations.
Open Scope R_scope.

(** ** numpy (library semantics) *)
(** [a.squeeze()]: the axes of length one are dropped; [unsqueeze s ix] is the index of the
    entry in the array of shape [s] *)
Fixpoint unsqueeze (s ix : list nat) : list nat :=
  match s with
  | [] => []
  | n :: s' => if Nat.eqb n 1 then O :: unsqueeze s' ix else hd O ix :: unsqueeze s' (tl ix)
  end.
Definition squeeze {A} (a : nd A) : nd A :=
  ND (filter (fun n => negb (Nat.eqb n 1)) (shape a)) (fun ix => get a (unsqueeze (shape a) ix)).
(** [a[:, None]]: too many indices for a 0-d array *)
Definition axis_after_first {A} (a : nd A) : result (nd A) :=
  match shape a with
  | [] => Raise IndexError
  | n :: s => Ok (ND (n :: 1%nat :: s) (fun ix => get a (hd O ix :: tl (tl ix))))
  end.
(** [for dim in range(n): a = a[:, None]] *)
Fixpoint axes_after_first {A} (n : nat) (a : nd A) : result (nd A) :=
  match n with O => Ok a | S n' => do a' <- axis_after_first a; axes_after_first n' a' end.
(** [a += b], [a -= b]: a Python number is rebound to the result; an array is changed in place,
    which fails when the result has another shape *)
Definition in_place {A B} (op : A -> B -> A) (a : nd A) (b : nd B) : result (nd A) :=
  do r <- bop op a b;
  match shape a with
  | [] => Ok r
  | _ => if shape_eqb (shape r) (shape a) then Ok r else Raise ValueError
  end.
(** the Python number 0 *)
Definition zero_number : nd C := ND [] (fun _ => RtoC 0).

(** ** fdem/halfspace.py, MagneticDipoleHalfSpace *)
(** em_x, em_y, em_z *)
Record components : Type := EM { em_x : nd C; em_y : nd C; em_z : nd C }.

Section Halfspace.
  Variable iv kv : nat -> C -> C.
  Variable mu_0 : R.

  (** l.108-114 *)
  Definition vertical_part (src_z : R) (k : nd C) (r x y : nd R) (IK1 IK2 : nd C) (em : components) : result components :=
    if Reqb src_z 0 then Ok em
    else
      do t <- bop (fun k r => RtoC src_z * mh_hz k r)%C k r;
      do z <- in_place Cplus (em_z em) t;
      do q <- bop (fun k (r : R) => k ^ 2 / r)%C k r;
      do d <- bop Cminus IK1 IK2;
      do Hr <- bop Cmult q d;
      do angle <- bop atan2 y x;
      do t <- bop (fun a h => RtoC (src_z * cos a) * h)%C angle Hr;
      do x' <- in_place Cplus (em_x em) t;
      do t <- bop (fun a h => RtoC (src_z * sin a) * h)%C angle Hr;
      do y' <- in_place Cplus (em_y em) t;
      Ok (EM x' y' z).
  (** x*y*(phi - r*dphi_dr) times src*(1/r**3): l.121, 126 *)
  Definition cross_term (src : R) (r x y : nd R) (phi dphi_dr : nd C) : result (nd C) :=
    do f <- bop (fun r x => src * (1 / r ^ 3) * x) r x;
    do f <- bop Rmult f y;
    do rd <- bop (fun (r : R) d => r * d)%C r dphi_dr;
    do d <- bop Cminus phi rd;
    bop (fun f d => RtoC f * d)%C f d.
  (** src*(-1/r**3)*(a**2*phi + b**2*r*dphi_dr): l.120, 127 *)
  Definition direct_term (src : R) (r a b : nd R) (phi dphi_dr : nd C) : result (nd C) :=
    do p <- bop (fun a p => RtoC (a ^ 2) * p)%C a phi;
    do br <- bop (fun b r => b ^ 2 * r) b r;
    do q <- bop (fun b d => RtoC b * d)%C br dphi_dr;
    do sum <- bop Cplus p q;
    bop (fun r c => RtoC (src * (-1 / r ^ 3)) * c)%C r sum.
  (** src*(k**2*a/r**2)*(IK1 - IK2): l.122, 128 *)
  Definition vertical_term (src : R) (k : nd C) (r a : nd R) (IK1 IK2 : nd C) : result (nd C) :=
    do ka <- bop (fun k (a : R) => k ^ 2 * a)%C k a;
    do c <- bop (fun ka (r : R) => RtoC src * (ka / r ^ 2))%C ka r;
    do d <- bop Cminus IK1 IK2;
    bop Cmult c d.
  (** l.116-128 *)
  Definition horizontal_part (src_x src_y : R) (k : nd C) (r x y : nd R) (IK1 IK2 : nd C) (em : components) : result components :=
    if (Reqb src_x 0 && Reqb src_y 0)%bool then Ok em
    else
      do phi <- bop mh_phi k r;
      do dphi_dr <- bop mh_dphi_dr k r;
      do em <- (if Reqb src_x 0 then Ok em
        else
          do t <- direct_term src_x r y x phi dphi_dr;
          do x' <- in_place Cplus (em_x em) t;
          do t <- cross_term src_x r x y phi dphi_dr;
          do y' <- in_place Cplus (em_y em) t;
          do t <- vertical_term src_x k r x IK1 IK2;
          do z' <- in_place Cminus (em_z em) t;
          Ok (EM x' y' z'));
      (if Reqb src_y 0 then Ok em
       else
         do t <- cross_term src_y r x y phi dphi_dr;
         do x' <- in_place Cplus (em_x em) t;
         do t <- direct_term src_y r x y phi dphi_dr;
         do y' <- in_place Cplus (em_y em) t;
         do t <- vertical_term src_y k r y IK1 IK2;
         do z' <- in_place Cminus (em_z em) t;
         Ok (EM x' y' z')).
  (** l.130-136 *)
  Definition without_primary (o : vec3) (r x y : nd R) (em : components) : result components :=
    do mdotr <- bop (fun x y => vx o * x + vy o * y) x y;
    do xm <- bop (fun x m => 3 * x * m) x mdotr;
    do t <- bop (fun xm r => xm / r ^ 5 - vx o / r ^ 3) xm r;
    do x' <- in_place (fun e t => e - RtoC t)%C (em_x em) t;
    do ym <- bop (fun y m => 3 * y * m) y mdotr;
    do t <- bop (fun ym r => ym / r ^ 5 - vy o / r ^ 3) ym r;
    do y' <- in_place (fun e t => e - RtoC t)%C (em_y em) t;
    do z' <- in_place (fun e t => e - RtoC t)%C (em_z em) (amap (fun r => - vz o / r ^ 3) r);
    Ok (EM x' y' z').
  (** l.87-138; [freq]: the stored array, of at most one dimension.  [xy[..., :2]] of a 0-d array
      is an IndexError. *)
  Definition mh_H_array (s : mhalf) (freq : nd R) (secondary : bool) (xy : nd R) : result (nd C) :=
    let k := amap (fun f => mh_k mu_0 (with_freq s f)) freq in
    match shape xy with
    | [] => Raise IndexError
    | _ =>
      do dxy <- bop Rminus (first_two xy) (first_two (vec_nd (mh_loc s)));
      let r := norm_two dxy in
      do x <- item dxy 0;
      do y <- item dxy 1;
      do k <- axes_after_first (ndim r) k;
      let o := mh_orient s in
      do IK1 <- bop (fun k (r : R) => iv 1 (Ci * k * r / 2) * kv 1 (Ci * k * r / 2))%C k r;
      do IK2 <- bop (fun k (r : R) => iv 2 (Ci * k * r / 2) * kv 2 (Ci * k * r / 2))%C k r;
      do em <- vertical_part (vz o) k r x y IK1 IK2 (EM zero_number zero_number zero_number);
      do em <- horizontal_part (vx o) (vy o) k r x y IK1 IK2 em;
      do em <- (if secondary then without_primary o r x y em else Ok em);
      do e <- stack_last [em_x em; em_y em; em_z em];
      Ok (amap (fun h => RtoC (mh_moment s / (4 * PI)) * h)%C (squeeze e))
    end.
End Halfspace.

(** ** fdem/layered.py, MagneticDipoleLayeredHalfSpace *)
(** l.390-478 for an array [xyz] of at most two dimensions: [xyz[:, 2]] is an IndexError when
    there is one dimension or fewer than three columns; [xyz - self.location] a ValueError when
    there are more than three.  [None]: nan. *)
Definition ly_H_array (mu_0 : R) (flt : hankel) (s : layered) (xyz : nd R) (field : string) : result (nd (option C)) :=
  match shape xyz with
  | [n; k] =>
    if (k <? 3)%nat then Raise IndexError
    else if existsb (fun i => Rltb (get xyz [i; 2%nat]) 0) (seq 0 n) then Raise ValueError
    else if negb (Nat.eqb k 3) then Raise ValueError
    else
      do h <- magnetic_field mu_0 flt s (map (fun i => V3 (get xyz [i; O]) (get xyz [i; 1%nat]) (get xyz [i; 2%nat])) (seq 0 n)) field;
      Ok (squeeze (ND [n_frequency s; n; 3%nat] (fun ix => match ix with
        | [f; i; c] => option_map (fun v => ccomponent v c) (nth i (nth f h []) None)
        | _ => None
        end)))
  | _ => Raise IndexError
  end.
