(** Proofs for C44. *)
From Coq Require Import Reals Lra Lia Nsatz.
From Verif Require Import Geo_Model Geo_Spec.
Open Scope R_scope.

Lemma rotation_eqs A : rotation A ->
  let '(M3 a b c d e f g h i) := A in
  a*a + d*d + g*g = 1 /\ b*b + e*e + h*h = 1 /\ c*c + f*f + i*i = 1 /\
  a*b + d*e + g*h = 0 /\ a*c + d*f + g*i = 0 /\ b*c + e*f + h*i = 0 /\
  a*(e*i - f*h) - b*(d*i - f*g) + c*(d*h - e*g) = 1.
Proof.
  destruct A as [a b c d e f g h i]. intros [H D].
  pose proof (H 0 0 ltac:(lia) ltac:(lia))%nat as H00. pose proof (H 1 1 ltac:(lia) ltac:(lia))%nat as H11. pose proof (H 2 2 ltac:(lia) ltac:(lia))%nat as H22.
  pose proof (H 0 1 ltac:(lia) ltac:(lia))%nat as H01. pose proof (H 0 2 ltac:(lia) ltac:(lia))%nat as H02. pose proof (H 1 2 ltac:(lia) ltac:(lia))%nat as H12.
  unfold dot3, col, el in *. cbn in *. unfold det3 in D. cbn in D. repeat split; assumption.
Qed.
Lemma rotation_intro a b c d e f g h i :
  a*a + d*d + g*g = 1 -> b*b + e*e + h*h = 1 -> c*c + f*f + i*i = 1 ->
  a*b + d*e + g*h = 0 -> a*c + d*f + g*i = 0 -> b*c + e*f + h*i = 0 ->
  a*(e*i - f*h) - b*(d*i - f*g) + c*(d*h - e*g) = 1 -> rotation (M3 a b c d e f g h i).
Proof.
  intros. split; [|unfold det3; cbn; assumption]. intros [|[|[|I]]] [|[|[|J]]] HI HJ; try lia; unfold dot3, col, el; cbn; lra.
Qed.
(** the cofactor equations and the row equations of a rotation *)
Lemma rotation_cof A : rotation A ->
  let '(M3 a b c d e f g h i) := A in
  a = e*i - f*h /\ b = f*g - d*i /\ c = d*h - e*g /\
  d = c*h - b*i /\ e = a*i - c*g /\ f = b*g - a*h /\
  g = b*f - c*e /\ h = c*d - a*f /\ i = a*e - b*d /\
  a*a + b*b + c*c = 1 /\ d*d + e*e + f*f = 1 /\ g*g + h*h + i*i = 1 /\
  a*d + b*e + c*f = 0 /\ a*g + b*h + c*i = 0 /\ d*g + e*h + f*i = 0.
Proof.
  intros H. apply rotation_eqs in H. destruct A as [a b c d e f g h i]. destruct H as (H1 & H2 & H3 & H4 & H5 & H6 & D).
  repeat split; nsatz.
Qed.

Lemma rot_mat_rotation q : unitq q -> rotation (rot_mat q).
Proof. destruct q as [w x y z]. unfold unitq. cbn. intros H. unfold rot_mat. cbn. apply rotation_intro; nsatz. Qed.

(** one branch of the construction *)
Lemma fin_sq t : 0 < t -> let k := 0.5 / sqrt t in 4 * (k * k * t) = 1.
Proof.
  intros Ht k. unfold k. assert (Hs : 0 < sqrt t) by (apply sqrt_lt_R0; exact Ht). assert (S2 : sqrt t * sqrt t = t) by (apply sqrt_def; lra).
  assert (F : (0.5 / sqrt t) * (sqrt t) = 0.5) by (unfold Rdiv; rewrite Rmult_assoc, Rinv_l by lra; lra).
  set (u := 0.5 / sqrt t) in *. transitivity (4 * ((u * sqrt t) * (u * sqrt t))); [rewrite <- S2; rewrite S2; nra|rewrite F; lra].
Qed.
Lemma branch t W X Y Z a b c d e f g h i : 0 < t ->
  W * W + X * X + Y * Y + Z * Z = 4 * t ->
  Y * Y + Z * Z = 2 * t * (1 - a) -> X * Y - Z * W = 2 * t * b -> X * Z + Y * W = 2 * t * c ->
  X * Y + Z * W = 2 * t * d -> Z * Z + X * X = 2 * t * (1 - e) -> Y * Z - X * W = 2 * t * f ->
  X * Z - Y * W = 2 * t * g -> Y * Z + X * W = 2 * t * h -> Y * Y + X * X = 2 * t * (1 - i) ->
  let k := 0.5 / sqrt t in let q := Q4 (W * k) (X * k) (Y * k) (Z * k) in unitq q /\ rot_mat q = M3 a b c d e f g h i.
Proof.
  intros Ht N A B C D E F G H I k q. pose proof (fin_sq t Ht) as K. fold k in K. cbv zeta in K. unfold q, unitq, rot_mat. cbn [qw qx qy qz]. clearbody k. clear q.
  split; [|f_equal]; nsatz.
Qed.
Lemma quat_of_mat_ok A : rotation A -> unitq (quat_of_mat A) /\ rot_mat (quat_of_mat A) = A.
Proof.
  intros H. pose proof (rotation_cof A H) as C. apply rotation_eqs in H. destruct A as [a b c d e f g h i].
  destruct H as (H1 & H2 & H3 & H4 & H5 & H6 & D). destruct C as (C1 & C2 & C3 & C4 & C5 & C6 & C7 & C8 & C9 & R1 & R2 & R3 & R4 & R5 & R6).
  unfold quat_of_mat. cbn [m00 m01 m02 m10 m11 m12 m20 m21 m22]. cbv zeta.
  destruct (Rlt_dec i 0) as [N|N]; [destruct (Rlt_dec e a) as [N2|N2]|destruct (Rlt_dec a (- e)) as [N2|N2]]; (apply branch; [lra|..]); clear N N2; nsatz.
Qed.
