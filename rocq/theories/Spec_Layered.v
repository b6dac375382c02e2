(** Vocabulary of the statements about MagneticDipoleLayeredHalfSpace. *)
From Coq Require Import Reals List.
From Coquelicot Require Import Coquelicot.
From Verif Require Import Vec3 Cplx Numpy Model_RTE Model_Layered.
Import ListNotations.
Open Scope R_scope.

(** a property array of the documented shape: (n_layer,) or (n_layer, n_frequency) *)
Definition fits (nl nf : nat) (p : parr) : Prop :=
  match p with P1 l => length l = nl | P2 a => a_rows a = nl /\ a_cols a = nf end.
Definition consistent (s : layered) : Prop :=
  fits (n_layer s) (n_frequency s) (ly_sigma s) /\ fits (n_layer s) (n_frequency s) (ly_mu s) /\
  fits (n_layer s) (n_frequency s) (ly_epsilon s).

(** the value of a property in a layer at a frequency *)
Definition pvalue (p : parr) (l f : nat) : C :=
  match p with P1 a => nth l a (RtoC 0) | P2 a => a_at a l f end.

(** the field at frequency number [f] and receiver number [k] *)
Definition entry (r : list (list (option cvec))) (f k : nat) : option cvec := nth k (nth f r []) None.
(** an array with [nf] rows of [np] receivers *)
Definition shaped (nf np : nat) (r : list (list (option cvec))) : Prop :=
  length r = nf /\ forall f, (f < nf)%nat -> length (nth f r []) = np.

(** the same ground with another dipole *)
Definition with_dipole (s : layered) (location orientation : vec3) (moment : R) : layered :=
  LY (ly_frequency s) (ly_thickness s) (ly_sigma s) (ly_mu s) (ly_epsilon s) (ly_quasistatic s) location orientation moment.

(** receivers on or above the surface *)
Definition above (xyz : list vec3) : Prop := List.Forall (fun p => 0 <= vz p) xyz.

(** what sigma_hat should be in layer [l] at frequency number [f] *)
Definition hat (s : layered) (l f : nat) : C :=
  if ly_quasistatic s then pvalue (ly_sigma s) l f
  else (pvalue (ly_sigma s) l f + Ci * RtoC (2 * PI * rget (ly_frequency s) f) * pvalue (ly_epsilon s) l f)%C.


(** assignments that do not change the number of layers, nor the number of frequencies unless
    all three properties are one-dimensional *)
Definition keeps_counts (s : layered) (a : assignment) : Prop :=
  match a with
  | Set_frequency v => forall f, new_frequency v = Ok f -> length f = n_frequency s \/
      exists x y z, ly_sigma s = P1 x /\ ly_mu s = P1 y /\ ly_epsilon s = P1 z
  | Set_thickness v => forall t, new_thickness v = Ok t -> length t = length (ly_thickness s)
  | _ => True
  end.

(** shapes for which magnetic_field works: two-dimensional sigma and epsilon may have a single
    row or column when displacement currents are included, since numpy then broadcasts them *)
Definition loosely (nl nf : nat) (p : parr) : Prop :=
  match p with P1 l => length l = nl | P2 a => (a_rows a = 1%nat \/ a_rows a = nl) /\ (a_cols a = 1%nat \/ a_cols a = nf) end.
Definition computable (s : layered) : Prop :=
  let nl := n_layer s in let nf := n_frequency s in
  fits nl nf (ly_mu s) /\
  if ly_quasistatic s then fits nl nf (ly_sigma s) /\ (forall l, ly_epsilon s = P1 l -> length l = nl)
  else loosely nl nf (ly_sigma s) /\ loosely nl nf (ly_epsilon s).


(** the object reduced to its frequency number [f] *)
Definition single (s : layered) (f : nat) : layered :=
  let column p := P1 (map (fun l => pvalue p l f) (seq 0 (n_layer s))) in
  LY [nth f (ly_frequency s) 0] (ly_thickness s) (column (ly_sigma s)) (column (ly_mu s)) (column (ly_epsilon s))
     (ly_quasistatic s) (ly_location s) (ly_orientation s) (ly_moment s).

(** the same object with other layers (one-dimensional properties) *)
Definition with_layers (s : layered) (thickness : list R) (sigma mu epsilon : list C) : layered :=
  LY (ly_frequency s) thickness (P1 sigma) (P1 mu) (P1 epsilon) (ly_quasistatic s) (ly_location s) (ly_orientation s) (ly_moment s).


(** a conducting layer with real permittivity and permeability *)
Definition conductor (sg m e : C) : Prop := 0 < Re sg /\ Im e = 0 /\ 0 < Re m /\ Im m = 0.
Fixpoint Forall3 {A B D} (P : A -> B -> D -> Prop) (a : list A) (b : list B) (d : list D) : Prop :=
  match a, b, d with
  | [], [], [] => True
  | x :: a, y :: b, z :: d => P x y z /\ Forall3 P a b d
  | _, _, _ => False
  end.

(** a history of assignments each of which keeps the array sizes *)
Fixpoint careful (mu_0 epsilon_0 : R) (s : layered) (l : list assignment) : Prop :=
  match l with [] => True | a :: l' => keeps_counts s a /\ careful mu_0 epsilon_0 (after mu_0 epsilon_0 s a) l' end.

(** ** C99: which values the setters accept *)
(** the numbers in an assigned value, whatever its shape *)
Definition contains {A} (v : value A) (x : A) : Prop :=
  match v with
  | VScalar y => x = y
  | V1 l | VMore l => In x l
  | V2 r c a => exists i j, (i < r)%nat /\ (j < c)%nat /\ x = a i j
  | VBad => False
  end.
(** frequencies and thicknesses: a number or a one-dimensional array, nothing negative *)
Definition row_of (v : value R) (l : list R) : Prop :=
  match v with VScalar x => l = [x] | V1 l' => l = l' | _ => False end.
(** sigma, mu, epsilon: a number for all layers, or an array (n_layer,) or (n_layer, n_frequency) *)
Definition array_of (nl nf : nat) (v : value C) (p : parr) : Prop :=
  match v with
  | VScalar z => p = P1 (repeat z nl)
  | V1 l => p = P1 l /\ length l = nl
  | V2 r c a => p = P2 (A2 r c a) /\ r = nl /\ c = nf
  | _ => False
  end.
(** a complex number with non-negative imaginary part and a real part that [good] holds of *)
Definition physical (good : R -> Prop) (z : C) : Prop := 0 <= Im z /\ good (Re z).
(** [pcontains p z]: the stored array contains z *)
Definition pcontains (p : parr) (z : C) : Prop :=
  match p with P1 l => In z l | P2 a => exists i j, (i < a_rows a)%nat /\ (j < a_cols a)%nat /\ z = a_at a i j end.
(** everything the object stores is admissible *)
Definition admissible (mu_0 epsilon_0 : R) (s : layered) : Prop :=
  (forall x, In x (ly_frequency s) -> 0 <= x) /\ (forall x, In x (ly_thickness s) -> 0 <= x) /\
  (forall z, pcontains (ly_sigma s) z -> physical (fun x => 0 < x) z) /\
  (forall z, pcontains (ly_mu s) z -> physical (fun x => mu_0 <= x) z) /\
  (forall z, pcontains (ly_epsilon s) z -> physical (fun x => epsilon_0 <= x) z).
(** an outcome of a setter that stores the array [p] such that [stored p], refuses numbers that are not [ok] with
    ValueError and any other value with TypeError *)
Definition validates {A B} (ok : A -> Prop) (stored : B -> Prop) (v : value A) (out : result B) : Prop :=
  (forall p, out = Ok p <-> (forall x, contains v x -> ok x) /\ stored p) /\
  (out = Raise ValueError <-> exists x, contains v x /\ ~ ok x) /\
  (out = Raise TypeError <-> (forall x, contains v x -> ok x) /\ forall p, ~ stored p).

(** the object with one attribute replaced *)
Definition with_frequency (s : layered) f := LY f (ly_thickness s) (ly_sigma s) (ly_mu s) (ly_epsilon s) (ly_quasistatic s) (ly_location s) (ly_orientation s) (ly_moment s).
Definition with_thickness (s : layered) t := LY (ly_frequency s) t (ly_sigma s) (ly_mu s) (ly_epsilon s) (ly_quasistatic s) (ly_location s) (ly_orientation s) (ly_moment s).
Definition with_sigma (s : layered) p := LY (ly_frequency s) (ly_thickness s) p (ly_mu s) (ly_epsilon s) (ly_quasistatic s) (ly_location s) (ly_orientation s) (ly_moment s).
Definition with_mu (s : layered) p := LY (ly_frequency s) (ly_thickness s) (ly_sigma s) p (ly_epsilon s) (ly_quasistatic s) (ly_location s) (ly_orientation s) (ly_moment s).
Definition with_epsilon (s : layered) p := LY (ly_frequency s) (ly_thickness s) (ly_sigma s) (ly_mu s) p (ly_quasistatic s) (ly_location s) (ly_orientation s) (ly_moment s).
