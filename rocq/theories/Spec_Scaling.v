(** Change of the unit of length. *)
From Coq Require Import Reals List.
From Coquelicot Require Import Coquelicot.
From Verif Require Import Vec3 Model_Static Model_FDEM Model_TDEM Model_Prism Model_RTE Model_Layered.
Open Scope R_scope.

(** Lengths are multiplied by [a].  The media [m], [m'] look the same on the two scales: the induction
    number f mu sigma L^2 agrees, and so does the square of the electrical size f^2 mu epsilon L^2 unless
    displacement currents are neglected. *)
Definition same_induction (a : R) (m m' : fdem) : Prop :=
  fd_qs m' = fd_qs m /\
  a ^ 2 * (fd_freq m' * fd_mu m' * fd_sigma m') = fd_freq m * fd_mu m * fd_sigma m /\
  (fd_qs m <> PyTrue -> a ^ 2 * (fd_freq m' ^ 2 * fd_mu m' * fd_eps m') = fd_freq m ^ 2 * fd_mu m * fd_eps m).

(** for transients: mu sigma L^2 / t agrees *)
Definition same_diffusion (a : R) (m m' : tdem) : Prop :=
  0 < td_time m /\ 0 < td_time m' /\ 0 < td_sigma m /\ 0 < td_sigma m' /\ 0 < td_mu m /\ 0 < td_mu m' /\
  a ^ 2 * (td_mu m' * td_sigma m' / td_time m') = td_mu m * td_sigma m / td_time m.

(** [p] lies on one of the twelve edges of the box with corners [lo], [hi] *)
Definition on_an_edge (lo hi p : vec3) : Prop :=
  let face (c : vec3 -> R) := c p = c lo \/ c p = c hi in
  let within (c : vec3 -> R) := c lo <= c p <= c hi in
  (face vx /\ face vy /\ within vz) \/ (face vy /\ face vz /\ within vx) \/ (face vz /\ face vx /\ within vy).

(** the box, and the layered half-space with its source, on the scale [a]; the conductivities are multiplied
    by [s] and the frequencies divided by [a^2 s] *)
Definition scale_box (a : R) (b : box) : box := Box (vscal a (b_min b)) (vscal a (b_max b)).
Definition proper_box (b : box) : Prop :=
  vx (b_min b) < vx (b_max b) /\ vy (b_min b) < vy (b_max b) /\ vz (b_min b) < vz (b_max b).
Definition scale_parr (s : R) (p : parr) : parr :=
  match p with
  | P1 l => P1 (map (Cmult (RtoC s)) l)
  | P2 m => P2 (A2 (a_rows m) (a_cols m) (fun i j => RtoC s * a_at m i j)%C)
  end.
Definition scale_layered (a s : R) (o : layered) : layered :=
  LY (map (fun f => f / (a ^ 2 * s)) (ly_frequency o)) (map (Rmult a) (ly_thickness o)) (scale_parr s (ly_sigma o))
     (ly_mu o) (ly_epsilon o) (ly_quasistatic o) (vscal a (ly_location o)) (ly_orientation o) (ly_moment o).

(** apply a function to every number of one field or of the triple (total, primary, secondary) *)
Definition fields_map {X Y} (g : X -> Y) (f : fields X) : fields Y :=
  match f with One v => One (map g v) | Three t p s => Three (map g t) (map g p) (map g s) end.
