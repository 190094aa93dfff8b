(** Specification of 3-d rotations (C44). *)
From Coq Require Import Reals.
From Verif Require Import Geo_Model.
Open Scope R_scope.

(** Element (i,j) of a 3x3 matrix, element i of a vector. *)
Definition el (A : mat3) (i j : nat) : R :=
  match i, j with
  | 0, 0 => m00 A | 0, 1 => m01 A | 0, 2 => m02 A
  | 1, 0 => m10 A | 1, 1 => m11 A | 1, 2 => m12 A
  | 2, 0 => m20 A | 2, 1 => m21 A | 2, 2 => m22 A
  | _, _ => 0%R
  end%nat.
Definition col (A : mat3) (j : nat) : vec3 := V3 (el A 0 j) (el A 1 j) (el A 2 j).
(** Scalar product, Euclidean length. *)
Definition dot3 (a b : vec3) : R := v0 a * v0 b + v1 a * v1 b + v2 a * v2 b.
Definition norm3 (a : vec3) : R := sqrt (dot3 a a).
(** Determinant. *)
Definition det3 (A : mat3) : R :=
  m00 A * (m11 A * m22 A - m12 A * m21 A) - m01 A * (m10 A * m22 A - m12 A * m20 A) + m02 A * (m10 A * m21 A - m11 A * m20 A).
(** A rotation matrix: orthonormal columns, positive orientation. *)
Definition rotation (A : mat3) : Prop :=
  (forall i j, (i < 3)%nat -> (j < 3)%nat -> dot3 (col A i) (col A j) = if Nat.eqb i j then 1 else 0) /\ det3 A = 1.
(** The transposed matrix. *)
Definition transp (A : mat3) : mat3 := M3 (m00 A) (m10 A) (m20 A) (m01 A) (m11 A) (m21 A) (m02 A) (m12 A) (m22 A).
(** Quaternions of norm 1. *)
Definition unitq (q : quat) : Prop := qw q * qw q + qx q * qx q + qy q * qy q + qz q * qz q = 1.
(** Rotation by the angle a around the unit axis u (Rodrigues' formula). *)
Definition rodrigues (a : R) (u x : vec3) : vec3 :=
  vadd (vadd (vscale (cos a) x) (vscale (sin a) (cross u x))) (vscale ((1 - cos a) * dot3 u x) u).
