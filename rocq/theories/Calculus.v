(** Specification vocabulary: partial derivatives, gradient, Jacobian, curl,
    divergence of fields on R^3 (Coquelicot's [is_derive]).  This file knows
    nothing about the geoana model. *)
From Coq Require Import Reals Lra.
From Coquelicot Require Import Coquelicot.
From Verif Require Import Vec3.
Open Scope R_scope.

(** partial derivatives of a scalar field at [p] *)
Definition is_dx (f : vec3 -> R) (p : vec3) (d : R) : Prop :=
  is_derive (fun t => f (V3 t (vy p) (vz p))) (vx p) d.
Definition is_dy (f : vec3 -> R) (p : vec3) (d : R) : Prop :=
  is_derive (fun t => f (V3 (vx p) t (vz p))) (vy p) d.
Definition is_dz (f : vec3 -> R) (p : vec3) (d : R) : Prop :=
  is_derive (fun t => f (V3 (vx p) (vy p) t)) (vz p) d.

(** [g] is the gradient of [f] at [p] *)
Definition is_grad (f : vec3 -> R) (p g : vec3) : Prop :=
  is_dx f p (vx g) /\ is_dy f p (vy g) /\ is_dz f p (vz g).

(** row i of [J] is the gradient of component i of [F] *)
Definition is_jac (F : vec3 -> vec3) (p : vec3) (J : mat3) : Prop :=
  is_grad (fun q => vx (F q)) p (m0 J) /\
  is_grad (fun q => vy (F q)) p (m1 J) /\
  is_grad (fun q => vz (F q)) p (m2 J).

Definition curl_of (J : mat3) : vec3 :=
  V3 (vy (m2 J) - vz (m1 J)) (vz (m0 J) - vx (m2 J)) (vx (m1 J) - vy (m0 J)).

Definition is_curl (F : vec3 -> vec3) (p c : vec3) : Prop :=
  exists J, is_jac F p J /\ c = curl_of J.

Definition is_div (F : vec3 -> vec3) (p : vec3) (d : R) : Prop :=
  exists J, is_jac F p J /\ d = mtrace J.

(** the gradient, curl and divergence are unique *)
Lemma is_grad_unique f p g h : is_grad f p g -> is_grad f p h -> g = h.
Proof.
  unfold is_grad, is_dx, is_dy, is_dz. intros [A [B C]] [D [E F]].
  apply vec3_eq.
  - rewrite <- (is_derive_unique _ _ _ A); apply is_derive_unique; exact D.
  - rewrite <- (is_derive_unique _ _ _ B); apply is_derive_unique; exact E.
  - rewrite <- (is_derive_unique _ _ _ C); apply is_derive_unique; exact F.
Qed.

Lemma is_jac_unique F p J K : is_jac F p J -> is_jac F p K -> J = K.
Proof.
  intros [A [B C]] [D [E G]]. apply mat3_eq; eapply is_grad_unique; eassumption.
Qed.

Lemma is_curl_unique F p c d : is_curl F p c -> is_curl F p d -> c = d.
Proof. intros [J [A B]] [K [C D]]. subst. rewrite (is_jac_unique _ _ _ _ A C). reflexivity. Qed.

Lemma is_div_unique F p c d : is_div F p c -> is_div F p d -> c = d.
Proof. intros [J [A B]] [K [C D]]. subst. rewrite (is_jac_unique _ _ _ _ A C). reflexivity. Qed.

(** replacing the value of a derivative by an equal one *)
Lemma is_derive_eq (f : R -> R) (x d d' : R) : is_derive f x d -> d = d' -> is_derive f x d'.
Proof. intros H E; rewrite <- E; exact H. Qed.

(** Positivity of a sum of three squares with a non-zero term *)
Lemma sumsq_pos x y z : V3 x y z <> vzero -> 0 < x * x + y * y + z * z.
Proof. intro H. apply (vnorm2_pos _ H). Qed.

Lemma sqrt_sq_pos a : 0 < a -> 0 < sqrt a /\ sqrt a * sqrt a = a.
Proof. intro H; split; [apply sqrt_lt_R0; exact H | apply sqrt_sqrt; lra]. Qed.

(** continuity of a scalar field at a point *)
Definition is_cont (f : vec3 -> R) (p : vec3) : Prop :=
  forall e, 0 < e -> exists d, 0 < d /\ forall q, vnorm (vsub q p) < d -> Rabs (f q - f p) < e.
