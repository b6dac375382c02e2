(** Vocabulary of C130: a dislocation in an elastic half-space.  The x and y axes lie in the free surface, z points up and
    the half-space is z <= 0. *)
From Coq Require Import Reals.
From Coquelicot Require Import Coquelicot.
From Verif Require Import Vec3 Calculus.
Open Scope R_scope.

Inductive axis : Type := AX | AY | AZ.
Definition comp (j : axis) (v : vec3) : R := match j with AX => vx v | AY => vy v | AZ => vz v end.
Definition unit_vec (j : axis) : vec3 := match j with AX => V3 1 0 0 | AY => V3 0 1 0 | AZ => V3 0 0 1 end.

(** [I] is the integral of [f] over the rectangle a1..a2, b1..b2 *)
Definition is_double_integral (f : R -> R -> R) (a1 a2 b1 b2 I : R) : Prop :=
  exists inner, (forall t, b1 <= t <= b2 -> is_RInt (fun s => f s t) a1 a2 (inner t)) /\ is_RInt inner b1 b2 I.

Section Elastic.
  (** Lame's constants *)
  Variables lambda mu : R.

  (** Hooke's law: the stress of a displacement field with the Jacobian [J] *)
  Definition stress (J : mat3) : mat3 := madd (mscal (lambda * mtrace J) mid) (mscal mu (madd J (mtrans J))).
  (** the force per unit area with which the material on the side of [n] acts on a surface with unit normal [n] *)
  Definition traction (J : mat3) (n : vec3) : vec3 := mvec (stress J) n.

  (** a displacement field [u] with Jacobian [J] is in equilibrium in the half-space, without body forces, and its surface is
      free of traction except at the origin *)
  Definition in_equilibrium (u : vec3 -> vec3) (J : vec3 -> mat3) : Prop :=
    (forall p, vz p <= 0 -> p <> vzero -> is_jac u p (J p)) /\
    (forall p, vz p < 0 -> forall j, is_div (fun q => mvec (stress (J q)) (unit_vec j)) p 0) /\
    (forall p, vz p = 0 -> p <> vzero -> traction (J p) (V3 0 0 1) = vzero).

  (** the displacement at [p] made by a unit force on the surface at the origin, in direction [j]
      (Boussinesq for the vertical and Cerruti for the horizontal forces) *)
  Definition point_load (j : axis) (p : vec3) : vec3 :=
    let x := vx p in let y := vy p in let z := vz p in
    let r := vnorm p in let w := r - z in let k := mu / (lambda + mu) in
    vscal (/ (4 * PI * mu))
      match j with
      | AX => V3 (/ r + x * x / r ^ 3 + k * (/ w - x * x / (r * w ^ 2)))
                 (x * y / r ^ 3 - k * (x * y / (r * w ^ 2)))
                 (x * z / r ^ 3 - k * (x / (r * w)))
      | AY => V3 (x * y / r ^ 3 - k * (x * y / (r * w ^ 2)))
                 (/ r + y * y / r ^ 3 + k * (/ w - y * y / (r * w ^ 2)))
                 (y * z / r ^ 3 - k * (y / (r * w)))
      | AZ => V3 (x * z / r ^ 3 + k * (x / (r * w)))
                 (y * z / r ^ 3 + k * (y / (r * w)))
                 (z * z / r ^ 3 + (1 + k) / r)
      end.

  (** the lower half of the sphere of radius [a] around the origin: [th] is the angle from straight down, [ph] the azimuth *)
  Definition hemisphere (a th ph : R) : vec3 := V3 (a * sin th * cos ph) (a * sin th * sin ph) (- a * cos th).
  (** the displacement field [u] is that of a force [f] on the surface at the origin: the material outside any hemisphere
      around the origin holds the material inside it with the force - f *)
  Definition is_made_by_force (u : vec3 -> vec3) (f : vec3) : Prop :=
    forall a, 0 < a -> forall i, exists T,
    (forall ph th, 0 <= ph <= 2 * PI -> 0 <= th <= PI / 2 -> exists J,
      is_jac u (hemisphere a th ph) J /\
      T ph th = comp i (traction J (vscal (/ a) (hemisphere a th ph))) * (a ^ 2 * sin th)) /\
    is_double_integral T 0 (2 * PI) 0 (PI / 2) (- comp i f).

  (** Volterra's formula.  A fault al1..al2 along x and aw1..aw2 down its dip from the surface lies in the plane through the x
      axis spanned by V3 1 0 0 and V3 0 cd sd.  The material on the side of its normal V3 0 (-sd) cd has moved by U1 and U2 in
      these directions relative to the other side.  By Betti's reciprocity the displacement [u] of the surface point [P] in
      direction j is the work of the tractions of the unit load at [P] in direction j on that slip. *)
  Definition is_dislocation (sd cd al1 al2 aw1 aw2 U1 U2 : R) (P u : vec3) : Prop :=
    forall j, exists W,
    (forall s t, al1 <= s <= al2 -> aw1 <= t <= aw2 -> exists J,
      is_jac (point_load j) (vsub (V3 s (t * cd) (t * sd)) P) J /\
      W s t = vdot (V3 U1 (U2 * cd) (U2 * sd)) (traction J (V3 0 (- sd) cd))) /\
    is_double_integral W al1 al2 aw1 aw2 (comp j u).
End Elastic.
