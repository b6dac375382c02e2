(** Model of geoana/em/fdem/layered.py: MagneticDipoleLayeredHalfSpace.
    Numbers are exact (no nan); the Hankel filter of libdlf is an argument. *)
From Coq Require Import String Reals List Arith Bool.
From Coquelicot Require Import Coquelicot.
From Verif Require Import Vec3 Cplx Numpy Model_RTE.
Import ListNotations.
Open Scope R_scope.

(** ** Values and attributes *)
(** What is assigned to frequency, thickness, sigma, mu or epsilon: a number, or a
    list/tuple/ndarray of one, two or more dimensions; [VBad] is anything the conversion
    with [astype] or [complex] refuses.  (A zero-dimensional array becomes [V1 [x]] in
    [np.atleast_1d].  [None] as frequency becomes nan and is outside the model.) *)
Inductive value (A : Type) : Type :=
| VScalar (x : A) | V1 (l : list A) | V2 (rows cols : nat) (at_ : nat -> nat -> A) | VMore (l : list A) | VBad.
Arguments VScalar {A} x. Arguments V1 {A} l. Arguments V2 {A} rows cols at_. Arguments VMore {A} l. Arguments VBad {A}.

(** a stored sigma, mu or epsilon: one- or two-dimensional *)
Inductive parr : Type := P1 (l : list C) | P2 (a : arr2).

Record layered : Type := LY {
  ly_frequency : list R; ly_thickness : list R;
  ly_sigma : parr; ly_mu : parr; ly_epsilon : parr; ly_quasistatic : bool;
  ly_location : vec3; ly_orientation : vec3; ly_moment : R }.

Definition n_layer (s : layered) : nat := (length (ly_thickness s) + 1)%nat.
Definition n_frequency (s : layered) : nat := length (ly_frequency s).

(** the entries of a two-dimensional value, row by row *)
Definition entries {A} (rows cols : nat) (a : nat -> nat -> A) : list A :=
  flat_map (fun i => map (fun j => a i j) (seq 0 cols)) (seq 0 rows).

(** ** Setters.  [Raise]: the attribute keeps its value. *)
(** layered.py l.67-81 *)
Definition new_frequency (v : value R) : result (list R) :=
  match v with
  | VBad => Raise TypeError
  | VScalar x => if Rltb x 0 then Raise ValueError else Ok [x]
  | V1 l => if existsb (fun x => Rltb x 0) l then Raise ValueError else Ok l
  | V2 r c a => if existsb (fun x => Rltb x 0) (entries r c a) then Raise ValueError else Raise TypeError
  | VMore l => if existsb (fun x => Rltb x 0) l then Raise ValueError else Raise TypeError
  end.

(** layered.py l.95-112: [None] is no interface; otherwise the same tests as for frequency *)
Definition new_thickness (v : option (value R)) : result (list R) :=
  match v with
  | None => Ok []
  | Some v => new_frequency v
  end.

(** layered.py l.126-157 (sigma), l.169-200 (mu), l.212-239 (epsilon): the three setters differ
    in the test [bad] of the real part *)
Definition new_property (bad : R -> bool) (nl nf : nat) (v : value C) : result parr :=
  let refuse l := (existsb (fun z => Rltb (Im z) 0) l || existsb (fun z => bad (Re z)) l)%bool in
  match v with
  | VBad => Raise TypeError
  | VScalar z => let l := repeat z nl in if refuse l then Raise ValueError else Ok (P1 l)
  | V1 l => if refuse l then Raise ValueError else if Nat.eqb (length l) nl then Ok (P1 l) else Raise TypeError
  | V2 r c a =>
      if refuse (entries r c a) then Raise ValueError
      else if (Nat.eqb r nl && Nat.eqb c nf)%bool then Ok (P2 (A2 r c a)) else Raise TypeError
  | VMore l => if refuse l then Raise ValueError else Raise TypeError
  end.
Definition new_sigma := new_property (fun x => Rleb x 0).
Definition new_mu (mu_0 : R) := new_property (fun x => Rltb x mu_0).
Definition new_epsilon (epsilon_0 : R) := new_property (fun x => Rltb x epsilon_0).

(** one assignment [obj.attr = value]; location, orientation and moment are the values
    their setters store (em/base.py; see Model_Setters.v for what these accept) *)
Inductive assignment : Type :=
| Set_frequency (v : value R) | Set_thickness (v : option (value R))
| Set_sigma (v : value C) | Set_mu (v : value C) | Set_epsilon (v : value C)
| Set_quasistatic (b : bool) | Set_location (p : vec3) | Set_orientation (o : vec3) | Set_moment (m : R).

Section Constants.
  Variables (mu_0 epsilon_0 : R).

  Definition assign (s : layered) (a : assignment) : result layered :=
    match a with
    | Set_frequency v => rmap (fun f => LY f (ly_thickness s) (ly_sigma s) (ly_mu s) (ly_epsilon s) (ly_quasistatic s) (ly_location s) (ly_orientation s) (ly_moment s)) (new_frequency v)
    | Set_thickness v => rmap (fun t => LY (ly_frequency s) t (ly_sigma s) (ly_mu s) (ly_epsilon s) (ly_quasistatic s) (ly_location s) (ly_orientation s) (ly_moment s)) (new_thickness v)
    | Set_sigma v => rmap (fun x => LY (ly_frequency s) (ly_thickness s) x (ly_mu s) (ly_epsilon s) (ly_quasistatic s) (ly_location s) (ly_orientation s) (ly_moment s)) (new_sigma (n_layer s) (n_frequency s) v)
    | Set_mu v => rmap (fun x => LY (ly_frequency s) (ly_thickness s) (ly_sigma s) x (ly_epsilon s) (ly_quasistatic s) (ly_location s) (ly_orientation s) (ly_moment s)) (new_mu mu_0 (n_layer s) (n_frequency s) v)
    | Set_epsilon v => rmap (fun x => LY (ly_frequency s) (ly_thickness s) (ly_sigma s) (ly_mu s) x (ly_quasistatic s) (ly_location s) (ly_orientation s) (ly_moment s)) (new_epsilon epsilon_0 (n_layer s) (n_frequency s) v)
    | Set_quasistatic b => Ok (LY (ly_frequency s) (ly_thickness s) (ly_sigma s) (ly_mu s) (ly_epsilon s) b (ly_location s) (ly_orientation s) (ly_moment s))
    | Set_location p => Ok (LY (ly_frequency s) (ly_thickness s) (ly_sigma s) (ly_mu s) (ly_epsilon s) (ly_quasistatic s) p (ly_orientation s) (ly_moment s))
    | Set_orientation o => Ok (LY (ly_frequency s) (ly_thickness s) (ly_sigma s) (ly_mu s) (ly_epsilon s) (ly_quasistatic s) (ly_location s) o (ly_moment s))
    | Set_moment m => Ok (LY (ly_frequency s) (ly_thickness s) (ly_sigma s) (ly_mu s) (ly_epsilon s) (ly_quasistatic s) (ly_location s) (ly_orientation s) m)
    end.

  (** a refused assignment leaves the object as it is *)
  Definition after (s : layered) (a : assignment) : layered :=
    match assign s a with Ok s' => s' | Raise _ => s end.
  Fixpoint history (s : layered) (l : list assignment) : layered :=
    match l with [] => s | a :: l' => history (after s a) l' end.

  (** layered.py l.45-49 and the constructors of the base classes: thickness, frequency,
      quasistatic, sigma, mu, epsilon, moment, location, orientation, then the check of
      l.49-53 that the source is not below the surface *)
  Definition construct (frequency : value R) (thickness : option (value R)) (sigma mu epsilon : value C) (quasistatic : bool)
      (location orientation : vec3) (moment : R) : result layered :=
    do t <- new_thickness thickness;
    do f <- new_frequency frequency;
    let nl := (length t + 1)%nat in
    let nf := length f in
    do sg <- new_sigma nl nf sigma;
    do m <- new_mu mu_0 nl nf mu;
    do e <- new_epsilon epsilon_0 nl nf epsilon;
    if Rltb (vz location) 0 then Raise ValueError
    else Ok (LY f t sg m e quasistatic location orientation moment).
End Constants.

(** ** numpy broadcasting of two-dimensional arrays *)
Definition bdim (a b : nat) : option nat :=
  if Nat.eqb a b then Some a else if Nat.eqb a 1 then Some b else if Nat.eqb b 1 then Some a else None.
Definition bidx (dim i : nat) : nat := if Nat.eqb dim 1 then O else i.
Definition broadcast (f : C -> C -> C) (a b : arr2) : result arr2 :=
  match bdim (a_rows a) (a_rows b), bdim (a_cols a) (a_cols b) with
  | Some r, Some c =>
      Ok (A2 r c (fun i j => f (a_at a (bidx (a_rows a) i) (bidx (a_cols a) j))
                               (a_at b (bidx (a_rows b) i) (bidx (a_cols b) j))))
  | _, _ => Raise ValueError
  end.
Definition transpose (a : arr2) : arr2 := A2 (a_cols a) (a_rows a) (fun i j => a_at a j i).

(** em/fdem/base.py l.133-163 with l.10-32: [sigma + 1j*omega(frequency)*epsilon] *)
Definition sigma_hat_fn (frequency sigma epsilon : arr2) (quasistatic : bool) : result arr2 :=
  if quasistatic then Ok sigma
  else
    do we <- broadcast (fun w e => Ci * w * e)%C
               (A2 (a_rows frequency) (a_cols frequency) (fun i j => RtoC (2 * PI) * a_at frequency i j)%C) epsilon;
    broadcast Cplus sigma we.

(** layered.py l.262-274: a one-dimensional array is reshaped to (n_layer, 1), which fails
    when its length is another, and tiled; a two-dimensional one is returned as it is *)
Definition as_array (nl nf : nat) (p : parr) : result arr2 :=
  match p with
  | P1 l => if Nat.eqb (length l) nl then Ok (A2 nl nf (fun i _ => cget l i)) else Raise ValueError
  | P2 a => Ok a
  end.

(** layered.py l.276-282 *)
Definition sigma_hat_property (s : layered) : result arr2 :=
  do sg <- as_array (n_layer s) (n_frequency s) (ly_sigma s);
  do m <- as_array (n_layer s) (n_frequency s) (ly_mu s);
  do e <- as_array (n_layer s) (n_frequency s) (ly_epsilon s);
  do r <- sigma_hat_fn (A2 (n_frequency s) 1 (fun i _ => RtoC (rget (ly_frequency s) i))) sg e (ly_quasistatic s);
  Ok (transpose r).

(** ** magnetic_field *)
(** kernels/tranverse_electric_reflections.py l.135-140, rTE.pyx l.69-121: the checks of the compiled wrapper
    (see [pyx_rTE_forward], with which this agrees by C18) and the array *)
Definition rTE_forward (mu_0 : R) (frequencies lamb : list R) (sigma mu : arr2) (thicknesses : list R) : result (list (list C)) :=
  let nf := length frequencies in
  if negb (Nat.eqb nf (a_cols sigma)) then Raise ValueError
  else if negb (Nat.eqb (a_rows sigma) (length thicknesses + 1)) then Raise ValueError
  else if negb (Nat.eqb (a_rows mu) (a_rows sigma) && Nat.eqb (a_cols mu) (a_cols sigma)) then Raise ValueError
  else if (Nat.eqb nf 0 || Nat.eqb (length lamb) 0)%bool then Raise IndexError
  else Ok (py_rTE_forward mu_0 frequencies lamb sigma mu thicknesses).

(** libdlf.hankel.key_101_2009(): base, j0, j1 (library data; any filter) *)
Record hankel : Type := HF { hf_base : list R; hf_j0 : list R; hf_j1 : list R }.

(** layered.py l.395-397 *)
Definition offset (location p : vec3) : R :=
  sqrt ((vx p - vx location) ^ 2 + (vy p - vy location) ^ 2).
(** [if src != 0.0: C += v] *)
Definition when_nz (src v : R) : R := if Req_EM_T src 0 then 0 else v.

(** l.437-462: the coefficients for one receiver and one wavenumber [la] *)
Definition C0x (o : vec3) (dx dy rho la : R) : R :=
  when_nz (vx o) (vx o * (dx ^ 2 / rho ^ 2) * la ^ 2) + when_nz (vy o) (vy o * (dx * dy / rho ^ 2) * la ^ 2).
Definition C1x (o : vec3) (dx dy rho la : R) : R :=
  when_nz (vx o) (vx o * (1 / rho - 2 * dx ^ 2 / rho ^ 3) * la) - when_nz (vy o) (vy o * (2 * dx * dy / rho ^ 3) * la)
  + when_nz (vz o) (vz o * dx / rho * la ^ 2).
Definition C0y (o : vec3) (dx dy rho la : R) : R :=
  when_nz (vx o) (vx o * (dx * dy / rho ^ 2) * la ^ 2) + when_nz (vy o) (vy o * (dy ^ 2 / rho ^ 2) * la ^ 2).
Definition C1y (o : vec3) (dx dy rho la : R) : R :=
  - when_nz (vx o) (vx o * (2 * dx * dy / rho ^ 3) * la) + when_nz (vy o) (vy o * (1 / rho - 2 * dy ^ 2 / rho ^ 3) * la)
  + when_nz (vz o) (vz o * dy / rho * la ^ 2).
Definition C0z (o : vec3) (dx dy rho la : R) : R := when_nz (vz o) (vz o * la ^ 2).
Definition C1z (o : vec3) (dx dy rho la : R) : R :=
  - when_nz (vx o) (vx o * dx / rho * la ^ 2) - when_nz (vy o) (vy o * dy / rho * la ^ 2).

(** l.465-467: [((C0*rTE)@filt_j0 + (C1*rTE)@filt_j1)/offsets] *)
Fixpoint cdotr (a : list C) (w : list R) : C :=
  match a, w with x :: a', y :: w' => (x * RtoC y + cdotr a' w')%C | _, _ => RtoC 0 end.
Definition hankel_sum (flt : hankel) (rho : R) (c0 c1 : R -> R) (lam : list R) (rte : list C) : C :=
  ((cdotr (map2 (fun la r => RtoC (c0 la) * r)%C lam rte) (hf_j0 flt)
    + cdotr (map2 (fun la r => RtoC (c1 la) * r)%C lam rte) (hf_j1 flt)) / RtoC rho)%C.

(** l.469-477: the primary field, before the factor moment/(4 pi) *)
Definition primary (o d : vec3) : vec3 :=
  let r := vnorm d in
  let mdotr := vx o * vx d + vy o * vy d + vz o * vz d in
  V3 (3 * vx d * mdotr / r ^ 5 - vx o / r ^ 3)
     (3 * vy d * mdotr / r ^ 5 - vy o / r ^ 3)
     (3 * vz d * mdotr / r ^ 5 - vz o / r ^ 3).

(** l.401, 423-478 for one receiver; [rte]: the reflection coefficients of its wavenumbers
    at one frequency.  [None]: horizontal offset 0, division by zero (nan in numpy). *)
Definition receiver_field (flt : hankel) (s : layered) (total : bool) (p : vec3) (rte : list C) : option cvec :=
  let rho := offset (ly_location s) p in
  if Req_EM_T rho 0 then None
  else
    let o := ly_orientation s in
    let d := vsub p (ly_location s) in
    let dx := vx d in let dy := vy d in
    let h := vz (ly_location s) in
    let lam := map (fun b => b / rho) (hf_base flt) in
    let rte := map2 (fun la r => r * RtoC (exp (- la * (vz p + h))))%C lam rte in
    let em := CV (hankel_sum flt rho (C0x o dx dy rho) (C1x o dx dy rho) lam rte)
                 (hankel_sum flt rho (C0y o dx dy rho) (C1y o dx dy rho) lam rte)
                 (hankel_sum flt rho (C0z o dx dy rho) (C1z o dx dy rho) lam rte) in
    let em := if total then cvadd em (cvof (RtoC 1) (primary o d)) else em in
    Some (cvscal (RtoC (ly_moment s / (4 * PI))) em).

(** the slice [row[k*n : (k+1)*n]] (reshape of the last axis to (n_loc, n_filt)) *)
Definition chunk {A} (n k : nat) (row : list A) : list A := firstn n (skipn (k * n) row).

(** l.292-478.  Rows: frequencies, columns: receivers (the final [squeeze] is in
    Model_Arrays4.v).  [field] is compared with "total"; any other text means secondary. *)
Definition magnetic_field (mu_0 : R) (flt : hankel) (s : layered) (xyz : list vec3) (field : string) : result (list (list (option cvec))) :=
  if existsb (fun p => Rltb (vz p) 0) xyz then Raise ValueError
  else
    let lambd := flat_map (fun p => map (fun b => b / offset (ly_location s) p) (hf_base flt)) xyz in
    do sg <- as_array (n_layer s) (n_frequency s) (ly_sigma s);
    do m <- as_array (n_layer s) (n_frequency s) (ly_mu s);
    do e <- as_array (n_layer s) (n_frequency s) (ly_epsilon s);
    do sigh <- sigma_hat_fn (A2 (n_layer s) (n_frequency s) (fun _ j => RtoC (rget (ly_frequency s) j))) sg e (ly_quasistatic s);
    do rte <- rTE_forward mu_0 (ly_frequency s) lambd sigh m (ly_thickness s);
    Ok (map (fun row => map (fun kp => receiver_field flt s (String.eqb field "total") (snd kp) (chunk (length (hf_base flt)) (fst kp) row))
                            (combine (seq 0 (length xyz)) xyz)) rte).
