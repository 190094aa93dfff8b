(** Properties C38 (concatenation, rotation, resampling), C39 (searches) and C54
    (trapezoidal rule). *)
From Coq Require Import Sorted.
From Verif Require Import Base BaseLemmas Tab_Model Tab_Spec Polyphase_Model Polyphase_Spec Polyphase_Proofs2 Vec_Model Vec_Spec Vec_Proofs Concat_Proofs Fields.

(** ** C38 *)

(** vconcat(a, b) of two vectors (arrays or views, possibly the same): whatever
    the program that built them, if all their elements can be read, the result is
    a fresh vector of n + m elements holding those of a then those of b, and
    nothing else changed. *)
Theorem C38_vconcat {A : Type} isf (s : st A) c a b t1 t2 n m : reachable_nb isf s ->
  rows s a = Ok n -> cols s a = Ok 1%Z -> rows s b = Ok m -> cols s b = Ok 1%Z -> (0 <= n)%Z -> (0 <= m)%Z ->
  (forall i, (0 <= i < n)%Z -> exists x, get s a i = Ok x) -> (forall i, (0 <= i < m)%Z -> exists x, get s b i = Ok x) ->
  ~ In a [c; t1; t2] -> ~ In b [c; t1; t2] -> t1 <> c -> t2 <> c ->
  exists s', exec_all isf s (vconcat_prog c a b t1 t2 n m) = Ok s' /\
    rows s' c = Ok (n + m)%Z /\ cols s' c = Ok 1%Z /\ is_view s' c = Ok false /\
    (forall i, (0 <= i < n)%Z -> get s' c i = get s a i) /\
    (forall i, (0 <= i < m)%Z -> get s' c (n + i)%Z = get s b i) /\
    forall u, ~ In u [c; t1; t2] -> same_reads s s' u.
Proof. exact (vconcat_ok isf s c a b t1 t2 n m). Qed.
Print Assumptions C38_vconcat.

(** Finding: the matrix versions never write their result (the arguments of
    block() are in the wrong order).  vconcat of two non-empty float matrices
    returns a matrix with swapped dimensions whose every element is
    uninitialised; with another element type it throws. *)
Theorem C38_vconcat_matrix_refuted {A : Type} (s : st A) c a b t1 t2 ra rb ca : reachable_plain true s ->
  rows s a = Ok ra -> cols s a = Ok ca -> rows s b = Ok rb -> cols s b = Ok ca -> (0 < ra)%Z -> (0 < rb)%Z ->
  ~ In a [c; t1; t2] -> ~ In b [c; t1; t2] -> t1 <> c -> t2 <> c ->
  exists s', vconcat2 true s c a b t1 t2 = Ok s' /\ rows s' c = Ok ca /\ cols s' c = Ok (ra + rb)%Z /\
    forall i j, (0 <= i < ca)%Z -> (0 <= j < ra + rb)%Z -> get2 s' c i j = UB.
Proof.
  intros. destruct (vconcat2_unwritten s c a b t1 t2 ra rb ca) as (s' & E1 & E2 & E3 & E4); auto. exists s'; auto.
Qed.
Print Assumptions C38_vconcat_matrix_refuted.
Theorem C38_vconcat_matrix_not_float {A : Type} (s : st A) c a b t1 t2 ra rb ca : reachable_plain false s ->
  rows s a = Ok ra -> cols s a = Ok ca -> rows s b = Ok rb -> cols s b = Ok ca -> (0 < ra)%Z ->
  vconcat2 false s c a b t1 t2 = Exc.
Proof. exact (vconcat2_exc s c a b t1 t2 ra ca rb). Qed.
Print Assumptions C38_vconcat_matrix_not_float.
(** hconcat: when the first matrix is square the copy goes outside the result
    (undefined behaviour); otherwise the result is swapped and uninitialised. *)
Theorem C38_hconcat_refuted {A : Type} (s : st A) c a b t1 t2 r ca cb : reachable_plain true s ->
  rows s a = Ok r -> cols s a = Ok ca -> rows s b = Ok r -> cols s b = Ok cb -> (0 < r)%Z ->
  ~ In a [c; t1; t2] -> ~ In b [c; t1; t2] -> t1 <> c -> t2 <> c ->
  (ca = r -> hconcat true s c a b t1 t2 = UB) /\
  (ca <> r -> exists s', hconcat true s c a b t1 t2 = Ok s' /\ rows s' c = Ok (ca + cb)%Z /\ cols s' c = Ok r /\
     forall i j, (0 <= i < ca + cb)%Z -> (0 <= j < r)%Z -> get2 s' c i j = UB).
Proof.
  intros H1 H2 H3 H4 H5 H6 H7 H8 H9 H10. pose proof (hconcat_unwritten s c a b t1 t2 r ca cb H1 H2 H3 H4 H5 H6 H7 H8 H9 H10) as H.
  split; intros Hc.
  - rewrite (proj2 (Z.eqb_eq ca r) Hc) in H. exact H.
  - rewrite (proj2 (Z.eqb_neq ca r) Hc) in H. destruct H as (s' & E1 & E2 & E3 & E4). exists s'; auto.
Qed.
Print Assumptions C38_hconcat_refuted.

(** rotation_vec: y_i = x_((i + d) mod n) for every d >= -n; rotations compose,
    rotating by 0 or n changes nothing. *)
Theorem C38_rotation {A : Type} (x : list A) d a0 : (- Z.of_nat (length x) <= d)%Z ->
  exists y, rotation_vec x d = Ok y /\ length y = length x /\
    forall i, (i < length x)%nat -> nth i y a0 = nth (Z.to_nat ((Z.of_nat i + d) mod Z.of_nat (length x))) x a0.
Proof. exact (rotation_spec x d a0). Qed.
Print Assumptions C38_rotation.
Theorem C38_rotation_compose {A : Type} (x y : list A) d e :
  (- Z.of_nat (length x) <= d)%Z -> (- Z.of_nat (length x) <= e)%Z -> (- Z.of_nat (length x) <= d + e)%Z ->
  rotation_vec x d = Ok y -> rotation_vec y e = rotation_vec x (d + e).
Proof. exact (rotation_comp x y d e). Qed.
Print Assumptions C38_rotation_compose.
Theorem C38_rotation_back {A : Type} (x : list A) d : (- Z.of_nat (length x) <= d <= Z.of_nat (length x))%Z ->
  exists y, rotation_vec x d = Ok y /\ rotation_vec y (- d) = Ok x.
Proof.
  intros H. destruct x as [|a x]; [exists []; split; reflexivity|]. destruct (rotation_spec (a :: x) d a) as (y & E & _); [lia|].
  exists y. split; [exact E|]. rewrite (rotation_comp (a :: x) y d (- d)); auto; try lia. apply rotation_id. left. lia.
Qed.
Print Assumptions C38_rotation_back.
(** Finding: the documentation allows any shift, but every d < -n throws as soon
    as there are two elements. *)
Theorem C38_rotation_refuted {A : Type} (x : list A) d : (2 <= length x)%nat -> (d < - Z.of_nat (length x))%Z -> rotation_vec x d = Exc.
Proof. exact (rotation_exc x d). Qed.
Print Assumptions C38_rotation_refuted.

(** Upsampling by R then downsampling by R gives the vector back; downsampling
    keeps the samples at the multiples of R. *)
Theorem C38_resampling {K : cring} (x : list K) R : (0 < R)%nat ->
  exists y, surech x R = Ok y /\ length y = (length x * R)%nat /\
    (forall i, (i < length x)%nat -> samp y (i * R) = samp x i) /\
    (forall i, (i mod R <> 0)%nat -> samp y i = c0) /\ sousech y R = Ok x.
Proof. exact (resampling x R). Qed.
Print Assumptions C38_resampling.
Theorem C38_downsampling {A : Type} (a0 : A) (x : list A) R : (0 < R)%nat ->
  exists y, sousech x R = Ok y /\ length y = (length x / R)%nat /\ forall i, (i < length y)%nat -> nth i y a0 = nth (i * R) x a0.
Proof.
  intros HR. rewrite (sousech_ok a0 x R HR). eexists. split; [reflexivity|]. rewrite map_length, seq_length. split; [reflexivity|].
  intros i Hi. rewrite (nth_indep _ a0 (nth (0 * R) x a0)) by (rewrite map_length, seq_length; exact Hi).
  rewrite (map_nth (fun i => nth (i * R) x a0)). rewrite seq_nth by exact Hi. reflexivity.
Qed.
Print Assumptions C38_downsampling.
(** Cumulative sum and difference. *)
Theorem C38_diff_cumsum {K : cring} (a : K) x : diff (cumsum (a :: x)) = Ok x.
Proof. exact (diff_cumsum a x). Qed.
Print Assumptions C38_diff_cumsum.
Theorem C38_cumsum_diff {K : cring} (a : K) x : exists d, diff (a :: x) = Ok d /\ map (fun v => cadd v a) (cumsum d) = x.
Proof. eexists. split; [reflexivity|]. exact (cumsum_diff a x _ eq_refl). Qed.
Print Assumptions C38_cumsum_diff.
Theorem C38_cumsum {K : cring} (x : list K) : length (cumsum x) = length x /\
  forall n, (n < length x)%nat -> samp (cumsum x) n = sum (S n) (samp x).
Proof.
  split; [apply cumsum_length|]. intros n Hn. unfold cumsum, samp at 1. rewrite cumsum_from_nth by exact Hn.
  rewrite (Radd_0_l (cth K)). reflexivity.
Qed.
Print Assumptions C38_cumsum.
(** Zero padding to the common length. *)
Theorem C38_pad_zeros {K : cring} (x y : list K) : let (x', y') := pad_zeros x y in
  length x' = Nat.max (length x) (length y) /\ length y' = Nat.max (length x) (length y) /\
  (forall i, samp x' i = samp x i) /\ (forall i, samp y' i = samp y i).
Proof. exact (pad_spec x y). Qed.
Print Assumptions C38_pad_zeros.
(** Integer and linear ranges. *)
Theorem C38_integer_range a b : length (intervalle_entier a b) = Z.to_nat (b - a + 1) /\
  (forall i, (i < length (intervalle_entier a b))%nat -> nth i (intervalle_entier a b) 0%Z = (a + Z.of_nat i)%Z) /\
  forall z, In z (intervalle_entier a b) <-> (a <= z <= b)%Z.
Proof. exact (intervalle_spec a b). Qed.
Print Assumptions C38_integer_range.
Theorem C38_linspace {K : cfield} (a b : K) n : length (linspace a b n) = n /\
  (forall i, (i < n)%nat -> (2 <= n)%nat -> samp (linspace a b n) i = (a + (b - a) / cnat (n - 1) * cnat i)%K) /\
  (n = 1%nat -> linspace a b n = [a]) /\
  ((2 <= n)%nat -> cnat (K := K) (n - 1) <> c0 -> samp (linspace a b n) 0 = a /\ samp (linspace a b n) (n - 1) = b).
Proof.
  destruct (linspace_spec a b n) as (E1 & E2 & E3). repeat split; auto.
  - destruct n; [lia|reflexivity].
  - apply linspace_last; assumption.
Qed.
Print Assumptions C38_linspace.

(** ** C39 *)
Theorem C39_find_all x : true_indices x (trouve x).
Proof. exact (trouve_spec x). Qed.
Print Assumptions C39_find_all.
Theorem C39_find_first x : is_first (length x) (fun i => nth_error x i = Some true) (trouve_premier x).
Proof. exact (premier_spec x). Qed.
Print Assumptions C39_find_first.
(** First strict local maximum (for any comparison). *)
Theorem C39_first_local_maximum {A : Type} (gt : A -> A -> bool) (a0 : A) x :
  is_first (length x) (fun i => (1 <= i)%nat /\ (i + 1 < length x)%nat /\
     gt (nth i x a0) (nth (i - 1) x a0) = true /\ gt (nth i x a0) (nth (i + 1) x a0) = true) (trouve_premier_max_local gt x).
Proof.
  destruct (max_local_spec gt a0 x 1) as [[E H]|(j & E & Hj & E1 & H)].
  - left. split; [exact E|]. intros i Hi (H1 & H2 & H3 & H4). specialize (H (i - 1)%nat).
    replace (S (i - 1)) with i in H by lia. replace (S i) with (i + 1)%nat in H by lia. rewrite H3, H4 in H. cbn in H. specialize (H H2). discriminate.
  - right. exists (S j). split; [exact E|]. apply andb_prop in E1. replace (S j - 1)%nat with j by lia. replace (S j + 1)%nat with (S (S j)) by lia.
    split; [lia|]. split; [repeat split; try lia; apply E1|]. intros i Hi (H1 & H2 & H3 & H4). specialize (H (i - 1)%nat).
    replace (S (i - 1)) with i in H by lia. replace (S i) with (i + 1)%nat in H by lia. rewrite H3, H4 in H. cbn in H. specialize (H ltac:(lia)). discriminate.
Qed.
Print Assumptions C39_first_local_maximum.
(** Finding: trouve_dernier returns the last true index (or -1) only for the
    empty vector and for vectors ending with false, true. *)
Theorem C39_find_last_refuted x :
  is_last (length x) (fun i => nth_error x i = Some true) (trouve_dernier x) <-> x = [] \/ exists y, x = y ++ [false; true].
Proof. exact (dernier_iff x). Qed.
Print Assumptions C39_find_last_refuted.
(** What it returns: the position after the last false, or -1 if there is none. *)
Theorem C39_find_last_actual x :
  (trouve_dernier x = (-1)%Z /\ forall i, (i < length x)%nat -> nth i x false = true)
  \/ exists j, trouve_dernier x = (Z.of_nat j + 1)%Z /\ (j < length x)%nat /\ nth j x false = false
       /\ forall i, (j < i < length x)%nat -> nth i x false = true.
Proof. exact (dernier_from_spec x (length x) (le_n _)). Qed.
Print Assumptions C39_find_last_actual.
(** Extraction of a sub-vector: exactly the designated elements, an exception as
    soon as an index is out of range; with the indices of a mask, the elements kept. *)
Theorem C39_subvector {A : Type} (a0 : A) (x : list A) idx :
  (Forall (fun i => (0 <= i < Z.of_nat (length x))%Z) idx -> sousvec x idx = Ok (map (fun i => nth (Z.to_nat i) x a0) idx))
  /\ (Exists (fun i => ~ (0 <= i < Z.of_nat (length x))%Z) idx -> sousvec x idx = Exc).
Proof. exact (sousvec_spec a0 x idx). Qed.
Print Assumptions C39_subvector.
Theorem C39_mask {A : Type} (x : list A) (m : list bool) : (length m <= length x)%nat ->
  sousvec x (map Z.of_nat (trouve m)) = Ok (keep x m).
Proof. exact (mask_spec m x []). Qed.
Print Assumptions C39_mask.

(** ** C54: the trapezoidal rule *)
(** It is exact on affine functions and linear in the function, for n >= 2 points. *)
Theorem C54_exact_on_affine {K : cfield} (p q a b : K) n : (2 <= n)%nat -> cnat (K := K) (n - 1) <> c0 -> cnat (K := K) 2 <> c0 ->
  integrale_trap (fun x => (p * x + q)%K) a b n = Ok (p * (b * b - a * a) / cnat 2 + q * (b - a))%K.
Proof. exact (trap_affine p q a b n). Qed.
Print Assumptions C54_exact_on_affine.
Theorem C54_linear {K : cfield} (f g : K -> K) (c a b y z : K) n : (2 <= n)%nat ->
  integrale_trap f a b n = Ok y -> integrale_trap g a b n = Ok z ->
  integrale_trap (fun x => (c * f x + g x)%K) a b n = Ok (c * y + z)%K.
Proof. intros H1 H2 H3. exact (trap_linear f g c a b n y z H2 H3 H1). Qed.
Print Assumptions C54_linear.
(** The formula: the sum of the trapezoids over the n - 1 intervals of linspace. *)
Theorem C54_trapezoids {K : cfield} (f : K -> K) (a b : K) n : (2 <= n)%nat ->
  integrale_trap f a b n = Ok ((b - a) / cnat (n - 1) * (1 / cnat 2) *
    sum (n - 1) (fun i => f (samp (linspace a b n) i) + f (samp (linspace a b n) (S i))))%K.
Proof.
  intros Hn. rewrite trap_eq by exact Hn. do 2 f_equal. apply (sum_ext K). intros i Hi.
  destruct (linspace_spec a b n) as (_ & E & _). unfold samp. rewrite !E by lia. reflexivity.
Qed.
Print Assumptions C54_trapezoids.
(** With no point it throws, with one point it returns 0. *)
Theorem C54_degenerate {K : cfield} (f : K -> K) (a b : K) : integrale_trap f a b 0 = Exc /\ integrale_trap f a b 1 = Ok c0.
Proof. exact (trap_small f a b). Qed.
Print Assumptions C54_degenerate.

(** ** Non-vacuity and examples *)
Definition vec (v n : nat) : list (op Z) := Decl v (Z.of_nat n) 1 :: map (fun i => Set_ v (Z.of_nat i) (Z.of_nat (10 * v + i))) (seq 0 n).
(** v2 | (a segment of v1), where the hypotheses of C38_vconcat hold *)
Definition ex_pre := vec 1 3 ++ vec 2 2 ++ [Segment 3 1 1 2].
Example C38_vconcat_case :
  (let* s := exec_all true empty ex_pre in Ok (rows s 2, cols s 2, rows s 3, cols s 3, map (get s 2) [0; 1]%Z, map (get s 3) [0; 1]%Z))
  = Ok (Ok 2%Z, Ok 1%Z, Ok 2%Z, Ok 1%Z, [Ok 20; Ok 21]%Z, [Ok 11; Ok 12]%Z)
  /\ (let* s := exec_all true empty (ex_pre ++ vconcat_prog 5 2 3 6 7 2 2) in Ok (map (get s 5) [0; 1; 2; 3; 4]%Z))
  = Ok [Ok 20%Z; Ok 21%Z; Ok 11%Z; Ok 12%Z; Exc] /\ Forall noblock ex_pre.
Proof. split; [vm_compute; reflexivity|]. split; [vm_compute; reflexivity|]. unfold ex_pre. repeat constructor. Qed.
Definition mats : list (op Z) := [Decl 1 2 3; Decl 2 2 3; Decl 3 2 2].
Example C38_matrix_case : Forall plain mats /\
  (let* s := exec_all true empty mats in Ok (rows s 1, cols s 1, rows s 2, cols s 2, rows s 3, cols s 3)) = Ok (Ok 2, Ok 3, Ok 2, Ok 3, Ok 2, Ok 2)%Z
  /\ (let* s := exec_all true empty mats in let* s' := vconcat2 true s 5 1 2 6 7 in Ok (rows s' 5, cols s' 5)) = Ok (Ok 3, Ok 4)%Z
  /\ (let* s := exec_all true empty mats in hconcat true s 5 3 1 6 7) = UB.
Proof. split; [unfold mats; repeat constructor; cbn; lia|]. repeat split; vm_compute; reflexivity. Qed.
Example C38_rotation_case : rotation_vec [0; 1; 2; 3; 4; 5]%Z 2 = Ok [2; 3; 4; 5; 0; 1]%Z /\ rotation_vec [0; 1; 2]%Z (-1) = Ok [2; 0; 1]%Z
  /\ rotation_vec [0; 1; 2]%Z (-4) = Exc.
Proof. repeat split; vm_compute; reflexivity. Qed.
Example C38_resampling_case : surech (K := Zring) [5; 6; 7]%Z 2 = Ok [5; 0; 6; 0; 7; 0]%Z /\ sousech [5; 1; 6; 2; 7]%Z 2 = Ok [5; 6]%Z.
Proof. split; vm_compute; reflexivity. Qed.
Example C39_case : trouve [false; true; true; false; true] = [1; 2; 4]%nat /\ trouve_premier [false; true; true] = 1%Z
  /\ trouve_dernier [false; true; true; false] = 4%Z /\ trouve_premier_max_local Z.gtb [1; 3; 3; 2; 5; 4]%Z = 4%Z
  /\ sousvec [10; 11; 12]%Z [2; 0]%Z = Ok [12; 10]%Z.
Proof. repeat split; vm_compute; reflexivity. Qed.
From Coq Require Import QArith_base Qcanon. Close Scope Q_scope. Close Scope Qc_scope.
Example C54_case : (exists r, integrale_trap (K := Qcfield) (fun x => cadd (cmul (qc 3 1) x) (qc 1 1)) (qc 0 1) (qc 2 1) 5 = Ok r /\ this r = (8 # 1)%Q)
  /\ cnat (K := Qcfield) 4 <> c0 /\ cnat (K := Qcfield) 2 <> c0.
Proof. split; [eexists; split; [vm_compute; reflexivity|reflexivity]|]. split; intros H; apply (f_equal this) in H; vm_compute in H; discriminate. Qed.
