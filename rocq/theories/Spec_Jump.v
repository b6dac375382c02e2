(** Vocabulary for the behaviour of a prism's fields on its surface.  Only the record [box] is taken from the model. *)
From Coq Require Import Reals.
From Verif Require Import Vec3 Model_Prism Spec_Prism.
Open Scope R_scope.

(** [p] is in the relative interior of a face of [b] whose outward unit normal is [n] *)
Definition on_face (b : box) (p n : vec3) : Prop :=
  let ix := vx (b_min b) < vx p < vx (b_max b) in
  let iy := vy (b_min b) < vy p < vy (b_max b) in
  let iz := vz (b_min b) < vz p < vz (b_max b) in
  (iy /\ iz /\ (vx p = vx (b_max b) /\ n = V3 1 0 0 \/ vx p = vx (b_min b) /\ n = V3 (-1) 0 0)) \/
  (iz /\ ix /\ (vy p = vy (b_max b) /\ n = V3 0 1 0 \/ vy p = vy (b_min b) /\ n = V3 0 (-1) 0)) \/
  (ix /\ iy /\ (vz p = vz (b_max b) /\ n = V3 0 0 1 \/ vz p = vz (b_min b) /\ n = V3 0 0 (-1))).

(** [f q] tends to [L] as [q] tends to [p] through points with [P] *)
Definition limit_at (P : vec3 -> Prop) (f : vec3 -> R) (p : vec3) (L : R) : Prop :=
  forall e, 0 < e -> exists d, 0 < d /\ forall q, P q -> vnorm (vsub q p) < d -> Rabs (f q - L) < e.
Definition vlimit_at (P : vec3 -> Prop) (f : vec3 -> vec3) (p L : vec3) : Prop :=
  limit_at P (fun q => vx (f q)) p (vx L) /\ limit_at P (fun q => vy (f q)) p (vy L) /\ limit_at P (fun q => vz (f q)) p (vz L).
Definition mlimit_at (P : vec3 -> Prop) (f : vec3 -> mat3) (p : vec3) (L : mat3) : Prop :=
  vlimit_at P (fun q => m0 (f q)) p (m0 L) /\ vlimit_at P (fun q => m1 (f q)) p (m1 L) /\ vlimit_at P (fun q => m2 (f q)) p (m2 L).

(** the matrix n n^T *)
Definition dyad (n : vec3) : mat3 := M3 (vscal (vx n) n) (vscal (vy n) n) (vscal (vz n) n).
