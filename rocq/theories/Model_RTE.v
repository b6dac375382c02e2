(** Model of geoana/kernels/tranverse_electric_reflections.py (numpy) and of
    geoana/kernels/_extensions/_rTE.cpp with its wrapper rTE.pyx.
    Numbers are exact reals and complexes; [np.sqrt]/[std::sqrt] is the principal root. *)
From Coq Require Import Reals List ZArith Bool.
From Coquelicot Require Import Coquelicot.
From Verif Require Import Cplx Numpy.
Import ListNotations.
Open Scope R_scope.

(** np.tanh, std::tanh of a complex number *)
Definition ctanh (z : C) : C := ((cexp z - cexp (- z)) / (cexp z + cexp (- z)))%C.

(** ** numpy version.  A one-dimensional array is a list; [a[k]] is [cget a k].
    Everything below is for one frequency and one wavenumber: the leading layer axis is the
    only one the code indexes, frequency and wavenumber are broadcast axes. *)
Definition cget (a : list C) (k : nat) : C := nth k a (RtoC 0).
Definition rget (a : list R) (k : nat) : R := nth k a 0.
Definition map2 {A B D} (f : A -> B -> D) (a : list A) (b : list B) : list D :=
  map (fun p => f (fst p) (snd p)) (combine a b).

(** tranverse_electric_reflections.py l.36-42 and l.88-94: omega, u, Y, tanh *)
Definition py_omega (frequency : R) : R := 2 * PI * frequency.
Definition py_k2 (omega : R) (sigma mu : list C) : list C :=
  map2 (fun m s => - Ci * RtoC omega * m * s)%C mu sigma.
Definition py_u (omega lamb : R) (sigma mu : list C) : list C :=
  map (fun k2 => csqrt (RtoC (lamb ^ 2) - k2)%C) (py_k2 omega sigma mu).
Definition py_Y (omega lamb : R) (sigma mu : list C) : list C :=
  map2 (fun u m => u / (Ci * RtoC omega * m))%C (py_u omega lamb sigma mu) mu.
Definition py_tanh (omega lamb : R) (sigma mu : list C) (thicknesses : list R) : list C :=
  map2 (fun u h => ctanh (u * RtoC h)%C) (removelast (py_u omega lamb sigma mu)) thicknesses.

(** l.44-45: [for k in range(n_layer-2, -1, -1): Yh = ...]; [py_down Y tanh k Yh] is the
    value after the iterations k-1, ..., 0 *)
Fixpoint py_down (Y tanh : list C) (k : nat) (Yh : C) : C :=
  match k with
  | O => Yh
  | S k' => py_down Y tanh k' (cget Y k' * (Yh + cget Y k' * cget tanh k') / (cget Y k' + Yh * cget tanh k'))%C
  end.

(** l.9-50, one entry of the returned array *)
Definition py_rTE (mu_0 frequency lamb : R) (sigma mu : list C) (thicknesses : list R) : C :=
  let n_layer := (length thicknesses + 1)%nat in
  let omega := py_omega frequency in
  let Y := py_Y omega lamb sigma mu in
  let tanh := py_tanh omega lamb sigma mu thicknesses in
  let Yh := py_down Y tanh (n_layer - 1) (last Y (RtoC 0)) in
  let Y0 := (RtoC lamb / (Ci * RtoC omega * RtoC mu_0))%C in
  ((Y0 - Yh) / (Y0 + Yh))%C.

(** l.95-98: the array Yh; entry k is the value of the recursion at layer k *)
Definition py_Yh (Y tanh : list C) (n_layer k : nat) : C :=
  (fix go (m j : nat) (Yh : C) : C :=
     match m with
     | O => Yh
     | S m' => go m' (pred j) (cget Y (pred j) * (Yh + cget Y (pred j) * cget tanh (pred j)) / (cget Y (pred j) + Yh * cget tanh (pred j)))%C
     end) (n_layer - 1 - k)%nat (n_layer - 1)%nat (last Y (RtoC 0)).

(** l.107-123: iterations k, ..., n_layer-2 of the reverse sweep.  The result is
    (dsigma[k:n-1], dh[k:n-1], dmu[k:n-1], gyh0 after the loop). *)
Section Sweep.
  Variables (omega : R) (sigma mu : list C) (thicknesses : list R) (u Y tanh : list C) (Yh : nat -> C).
  Fixpoint py_sweep (m k : nat) (gyh0 : C) : list C * list C * list C * C :=
    match m with
    | O => (([], [], []), gyh0)
    | S m' =>
        let Yk := cget Y k in
        let Yn := Yh (k + 1)%nat in
        let t := cget tanh k in
        let bot := ((Yk + Yn * t) * (Yk + Yn * t))%C in
        let gy := (gyh0 * t * (RtoC 2 * t * Yk * Yn + Yk * Yk + Yn * Yn) / bot)%C in
        let gtanh := (gyh0 * (Yk * Yk * Yk - Yk * Yn * Yn) / bot)%C in
        let gyh1 := (gyh0 * - (t * t - RtoC 1) * Yk * Yk / bot)%C in
        let dh := (gtanh * cget u k * (RtoC 1 - t * t))%C in
        let gu := (gtanh * RtoC (rget thicknesses k) * (RtoC 1 - t * t))%C in
        let gu := (gu + gy / (Ci * RtoC omega * cget mu k))%C in
        let gmu := (gy * (- Yk / cget mu k))%C in
        let gk2 := (gu * RtoC (- / 2) / cget u k)%C in
        let gmu := (gmu - gk2 * (Ci * RtoC omega * cget sigma k))%C in
        let dsigma := (gk2 * (- Ci * RtoC omega * cget mu k))%C in
        let '((ds, dhs, dm), g) := py_sweep m' (k + 1)%nat gyh1 in
        ((dsigma :: ds, dh :: dhs, gmu :: dm), g)
    end.
End Sweep.

(** l.52-132: (rTE_dsigma, rTE_dh, rTE_dmu) for one frequency and one wavenumber *)
Definition py_rTE_gradient (mu_0 frequency lamb : R) (sigma mu : list C) (thicknesses : list R) : list C * list C * list C :=
  let n_layer := (length thicknesses + 1)%nat in
  let omega := py_omega frequency in
  let u := py_u omega lamb sigma mu in
  let Y := py_Y omega lamb sigma mu in
  let tanh := py_tanh omega lamb sigma mu thicknesses in
  let Yh := py_Yh Y tanh n_layer in
  let Y0 := (RtoC lamb / (Ci * RtoC omega * RtoC mu_0))%C in
  let gyh0 := (- RtoC 2 * Y0 / ((Y0 + Yh 0%nat) * (Y0 + Yh 0%nat)))%C in
  let '((ds, dh, dm), gyh0) := py_sweep omega sigma mu thicknesses u Y tanh Yh (n_layer - 1) 0 gyh0 in
  let mu_last := last mu (RtoC 0) in
  let sigma_last := last sigma (RtoC 0) in
  let gu := (gyh0 / (Ci * RtoC omega * mu_last))%C in
  let gmu := (gyh0 * (- Yh (n_layer - 1)%nat / mu_last))%C in
  let gk2 := (gu * RtoC (- / 2) / last u (RtoC 0))%C in
  let gmu := (gmu + gk2 * (- Ci * RtoC omega * sigma_last))%C in
  (ds ++ [gk2 * (- Ci * RtoC omega * mu_last)]%C, dh, dm ++ [gmu]).

(** ** C++ version *)
(** size_t arithmetic *)
Open Scope Z_scope.
Definition size_max : Z := 2 ^ 64.
Definition wrap (z : Z) : Z := z mod size_max.

(** Memory: [None] as a result is undefined behaviour (out-of-bounds access, reading an
    uninitialised cell, running out of [fuel]) or a second write to an output cell. *)
Definition rd {A} (buf : list A) (k : Z) : option A := if 0 <=? k then nth_error buf (Z.to_nat k) else None.
Fixpoint list_set {A} (buf : list A) (k : nat) (v : A) : list A :=
  match buf, k with
  | [], _ => []
  | _ :: l, O => v :: l
  | x :: l, S k' => x :: list_set l k' v
  end.
(** a cell that has not been written holds [None] *)
Definition rd_cell (buf : list (option C)) (k : Z) : option C :=
  match rd buf k with Some (Some v) => Some v | _ => None end.
(** write to a local std::vector *)
Definition wr (buf : list (option C)) (k : Z) (v : C) : option (list (option C)) :=
  match rd buf k with Some _ => Some (list_set buf (Z.to_nat k) (Some v)) | None => None end.
(** write to an output buffer, which must not have been written before *)
Definition wr_once (buf : list (option C)) (k : Z) (v : C) : option (list (option C)) :=
  match rd buf k with Some None => Some (list_set buf (Z.to_nat k) (Some v)) | _ => None end.

Notation "'ask' x <- r ; k" := (match r with Some x => k | None => None end) (at level 200, x pattern, r at level 100, k at level 200).

(** for(size_t i = start; cond(i); i = next(i)) body *)
Fixpoint c_for {St} (fuel : nat) (i : Z) (cond : Z -> bool) (next : Z -> Z) (body : Z -> St -> option St) (s : St) : option St :=
  if cond i then
    match fuel with
    | O => None
    | S f => match body i s with Some s' => c_for f (next i) cond next body s' | None => None end
    end
  else Some s.
Definition incr (i : Z) : Z := wrap (i + 1).
Definition decr (i : Z) : Z := wrap (i - 1).

(** _rTE.cpp l.18, 65 *)
Definition cpp_mu_0 : R := (4 / 10 ^ 7 * PI)%R.

(** _rTE.cpp l.38-45: the loop over the layers *)
Definition cpp_layers (fuel : nat) (omega l2 : R) (sigmas mus : list C) (so : Z) (h : list R) (n_layers : Z) (Yh : C) : option C :=
  c_for fuel (wrap (n_layers - 2)) (fun k => k <? wrap (n_layers - 1)) decr (fun k Yh =>
    ask mu_c <- rd mus (so + k);
    ask sg <- rd sigmas (so + k);
    ask hk <- rd h k;
    let k2 := (- Ci * RtoC omega * mu_c * sg)%C in
    let u := csqrt (RtoC l2 - k2)%C in
    let Y := (u / (Ci * RtoC omega * mu_c))%C in
    let tanhuh := ctanh (u * RtoC hk)%C in
    Some (Y * (Yh + Y * tanhuh) / (Y + Yh * tanhuh))%C) Yh.

(** _rTE.cpp l.7-50 *)
Definition cpp_rTE (fuel : nat) (TE : list (option C)) (frequencies lambdas : list R) (sigmas mus : list C) (h : list R)
    (n_frequency n_filter n_layers : Z) : option (list (option C)) :=
  option_map fst
  (c_for fuel 0 (fun i_filt => i_filt <? n_filter) incr (fun i_filt st =>
    ask lam <- rd lambdas i_filt;
    let l2 := (lam * lam)%R in
    c_for fuel 0 (fun i_freq => i_freq <? n_frequency) incr (fun i_freq '(TE, i) =>
      let so := wrap (i_freq * n_layers) in
      ask freq <- rd frequencies i_freq;
      let omega := (2 * PI * freq)%R in
      ask mu_c <- rd mus (so + wrap (n_layers - 1));
      ask sg <- rd sigmas (so + wrap (n_layers - 1));
      let k2 := (- Ci * RtoC omega * mu_c * sg)%C in
      let u := csqrt (RtoC l2 - k2)%C in
      let Yh := (u / (Ci * RtoC omega * mu_c))%C in
      ask Yh <- cpp_layers fuel omega l2 sigmas mus so h n_layers Yh;
      let Y0 := (RtoC lam / (Ci * RtoC omega * RtoC cpp_mu_0))%C in
      ask TE <- wr_once TE i ((Y0 - Yh) / (Y0 + Yh))%C;
      Some (TE, incr i)) st) (TE, 0)).

(** _rTE.cpp l.75-81: local vectors and output buffers *)
Record gstate : Type := GS {
  g_k2s : list (option C); g_us : list (option C); g_Yhs : list (option C); g_Ys : list (option C); g_tanhs : list (option C);
  g_ds : list (option C); g_dm : list (option C); g_dh : list (option C) }.

(** l.99-105, iteration k *)
Definition cpp_grad_down (omega l2 : R) (sigmas mus : list C) (so : Z) (h : list R) (k : Z) (s : gstate) : option gstate :=
  ask mu_c <- rd mus (so + k);
  ask sg <- rd sigmas (so + k);
  ask k2s <- wr (g_k2s s) k (- Ci * RtoC omega * mu_c * sg)%C;
  ask k2 <- rd_cell k2s k;
  ask us <- wr (g_us s) k (csqrt (RtoC l2 - k2)%C);
  ask u <- rd_cell us k;
  ask Ys <- wr (g_Ys s) k (u / (Ci * RtoC omega * mu_c))%C;
  ask hk <- rd h k;
  ask tanhs <- wr (g_tanhs s) k (ctanh (u * RtoC hk)%C);
  ask Y <- rd_cell Ys k;
  ask t <- rd_cell tanhs k;
  ask Yn <- rd_cell (g_Yhs s) (wrap (k + 1));
  ask Yhs <- wr (g_Yhs s) k (Y * (Yn + Y * t) / (Y + Yn * t))%C;
  Some (GS k2s us Yhs Ys tanhs (g_ds s) (g_dm s) (g_dh s)).

(** l.119-136, iteration k; [i] is the running index of the pair (filter, frequency) *)
Definition cpp_grad_up (omega : R) (sigmas mus : list C) (so : Z) (h : list R) (n_layers i : Z) (k : Z) (st : gstate * C) : option (gstate * C) :=
  let '(s, gyh0) := st in
  ask Yk <- rd_cell (g_Ys s) k;
  ask Yn <- rd_cell (g_Yhs s) (wrap (k + 1));
  ask t <- rd_cell (g_tanhs s) k;
  ask u <- rd_cell (g_us s) k;
  ask hk <- rd h k;
  ask mu_c <- rd mus (so + k);
  ask sg <- rd sigmas (so + k);
  let bot := ((Yk + Yn * t) * (Yk + Yn * t))%C in
  let gy := (gyh0 * t * (RtoC 2 * t * Yk * Yn + Yk * Yk + Yn * Yn) / bot)%C in
  let gtanh := (gyh0 * (Yk * Yk * Yk - Yk * Yn * Yn) / bot)%C in
  let gyh0 := (gyh0 * - (t * t - RtoC 1) * Yk * Yk / bot)%C in
  ask dh <- wr_once (g_dh s) (wrap (i * wrap (n_layers - 1)) + k) (gtanh * u * (RtoC 1 - t * t))%C;
  let gu := (gtanh * RtoC hk * (RtoC 1 - t * t))%C in
  let gu := (gu + gy / (Ci * RtoC omega * mu_c))%C in
  let gmu := (gy * (- Yk / mu_c))%C in
  let gk2 := (gu * RtoC (- / 2) / u)%C in
  let gmu := (gmu - gk2 * (Ci * RtoC omega * sg))%C in
  ask ds <- wr_once (g_ds s) (wrap (i * n_layers) + k) (gk2 * (- Ci * RtoC omega * mu_c))%C;
  ask dm <- wr_once (g_dm s) (wrap (i * n_layers) + k) gmu;
  Some (GS (g_k2s s) (g_us s) (g_Yhs s) (g_Ys s) (g_tanhs s) ds dm dh, gyh0).

(** l.86-143: one (filter, frequency) pair *)
Definition cpp_grad_cell (fuel : nat) (lam freq : R) (sigmas mus : list C) (so : Z) (h : list R) (n_layers i : Z) (s : gstate) : option gstate :=
  let l2 := (lam * lam)%R in
  let omega := (2 * PI * freq)%R in
  let n1 := wrap (n_layers - 1) in
  ask mu_c <- rd mus (so + n1);
  ask sg <- rd sigmas (so + n1);
  ask k2s <- wr (g_k2s s) n1 (- Ci * RtoC omega * mu_c * sg)%C;
  ask k2 <- rd_cell k2s n1;
  ask us <- wr (g_us s) n1 (csqrt (RtoC l2 - k2)%C);
  ask u <- rd_cell us n1;
  ask Yhs <- wr (g_Yhs s) n1 (u / (Ci * RtoC omega * mu_c))%C;
  ask s <- c_for fuel (wrap (n_layers - 2)) (fun k => k <? n1) decr (cpp_grad_down omega l2 sigmas mus so h)
             (GS k2s us Yhs (g_Ys s) (g_tanhs s) (g_ds s) (g_dm s) (g_dh s));
  let Y0 := (RtoC lam / (Ci * RtoC omega * RtoC cpp_mu_0))%C in
  ask Yh0 <- rd_cell (g_Yhs s) 0;
  let gyh0 := (- RtoC 2 * Y0 / ((Y0 + Yh0) * (Y0 + Yh0)))%C in
  ask (s, gyh0) <- c_for fuel 0 (fun k => k <? n1) incr (cpp_grad_up omega sigmas mus so h n_layers i) (s, gyh0);
  ask Yl <- rd_cell (g_Yhs s) n1;
  ask ul <- rd_cell (g_us s) n1;
  let gu := (gyh0 / (Ci * RtoC omega * mu_c))%C in
  let gmu := (gyh0 * (- Yl / mu_c))%C in
  let gk2 := (gu * RtoC (- / 2) / ul)%C in
  let gmu := (gmu + gk2 * - Ci * RtoC omega * sg)%C in
  ask ds <- wr_once (g_ds s) (wrap (i * n_layers) + n1) (gk2 * - Ci * RtoC omega * mu_c)%C;
  ask dm <- wr_once (g_dm s) (wrap (i * n_layers) + n1) gmu;
  Some (GS (g_k2s s) (g_us s) (g_Yhs s) (g_Ys s) (g_tanhs s) ds dm (g_dh s)).

(** _rTE.cpp l.52-146: (TE_dsigma, TE_dmu, TE_dh) *)
Definition cpp_rTEgrad (fuel : nat) (TE_dsigma TE_dmu TE_dh : list (option C)) (frequencies lambdas : list R) (sigmas mus : list C) (h : list R)
    (n_frequency n_filter n_layers : Z) : option (list (option C) * list (option C) * list (option C)) :=
  let vec n := repeat (@None C) (Z.to_nat n) in
  let s0 := GS (vec n_layers) (vec n_layers) (vec n_layers) (vec (n_layers - 1)) (vec (n_layers - 1)) TE_dsigma TE_dmu TE_dh in
  ask (s, _) <- c_for fuel 0 (fun i_filt => i_filt <? n_filter) incr (fun i_filt st =>
    ask lam <- rd lambdas i_filt;
    c_for fuel 0 (fun i_freq => i_freq <? n_frequency) incr (fun i_freq '(s, i) =>
      let so := wrap (i_freq * n_layers) in
      ask freq <- rd frequencies i_freq;
      ask s <- cpp_grad_cell fuel lam freq sigmas mus so h n_layers i s;
      Some (s, incr i)) st) (s0, 0);
  Some (g_ds s, g_dm s, g_dh s).

(** ** rTE.pyx *)
(** A (rows, columns) array given by its row and column numbers and its entries. *)
Record arr2 : Type := A2 { a_rows : nat; a_cols : nat; a_at : nat -> nat -> C }.
(** np.require(..., requirements="F") and the pointer to the first element: column-major cells *)
Definition flat_F (a : arr2) : list C :=
  flat_map (fun j => map (fun i => a_at a i j) (seq 0 (a_rows a))) (seq 0 (a_cols a)).
(** reading entry (i, j) of an F-ordered buffer *)
Definition from_F (rows cols : nat) (buf : list (option C)) : nat -> nat -> option C :=
  fun i j => nth (i + rows * j) buf None.

(** rTE.pyx l.69-121.  [&f[0]] and friends are bounds-checked by Cython: an empty array is an
    IndexError.  [None] inside the result is undefined behaviour of the C++ loop. *)
Definition pyx_rTE_forward (fuel : nat) (frequencies lamb : list R) (sigma mu : arr2) (thicknesses : list R)
    : result (option (list (option C))) :=
  let nf := length frequencies in
  if negb (Nat.eqb nf (a_cols sigma)) then Raise ValueError
  else if negb (Nat.eqb (a_rows sigma) (length thicknesses + 1)) then Raise ValueError
  else if negb (Nat.eqb (a_rows mu) (a_rows sigma) && Nat.eqb (a_cols mu) (a_cols sigma)) then Raise ValueError
  else if (Nat.eqb nf 0 || Nat.eqb (length lamb) 0)%bool then Raise IndexError
  else Ok (cpp_rTE fuel (repeat None (nf * length lamb)) frequencies lamb (flat_F sigma) (flat_F mu) thicknesses
             (Z.of_nat nf) (Z.of_nat (length lamb)) (Z.of_nat (a_rows sigma))).

(** rTE.pyx l.156-211; the outputs are (layer, frequency, filter) arrays in F order *)
Definition pyx_rTE_gradient (fuel : nat) (frequencies lamb : list R) (sigma mu : arr2) (thicknesses : list R)
    : result (option (list (option C) * list (option C) * list (option C))) :=
  let nf := length frequencies in
  let nl := a_rows sigma in
  if negb (Nat.eqb nf (a_cols sigma)) then Raise ValueError
  else if negb (Nat.eqb nl (length thicknesses + 1)) then Raise ValueError
  else if negb (Nat.eqb (a_rows mu) nl && Nat.eqb (a_cols mu) (a_cols sigma)) then Raise ValueError
  else if (Nat.eqb nf 0 || Nat.eqb (length lamb) 0)%bool then Raise IndexError
  else
    let gsig := repeat (@None C) (nl * (nf * length lamb)) in
    let gh := repeat (@None C) ((nl - 1) * (nf * length lamb)) in
    let gmu := repeat (@None C) (nl * (nf * length lamb)) in
    Ok (ask (gsig, gmu, gh) <- cpp_rTEgrad fuel gsig gmu gh frequencies lamb (flat_F sigma) (flat_F mu) thicknesses
                                (Z.of_nat nf) (Z.of_nat (length lamb)) (Z.of_nat nl);
        Some (gsig, gh, gmu)).
(** entry (l, f, i) of an F-ordered (layer, frequency, filter) buffer *)
Definition from_F3 (nl nf : nat) (buf : list (option C)) (l f i : nat) : option C := nth (l + nl * (f + nf * i)) buf None.

(** the column of a (layer, frequency) array at one frequency *)
Definition column (a : arr2) (f : nat) : list C := map (fun l => a_at a l f) (seq 0 (a_rows a)).

(** tranverse_electric_reflections.py l.9-50 for arrays of matching shapes: row f, column i *)
Definition py_rTE_forward (mu_0 : R) (frequencies lamb : list R) (sigma mu : arr2) (thicknesses : list R) : list (list C) :=
  map (fun f => map (fun i => py_rTE mu_0 (rget frequencies f) (rget lamb i) (column sigma f) (column mu f) thicknesses) (seq 0 (length lamb)))
      (seq 0 (length frequencies)).
