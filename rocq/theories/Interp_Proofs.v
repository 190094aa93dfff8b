(** Proofs about interpolation. *)
From Coq Require Import Field.
From Verif Require Import Base BaseLemmas OField Filters_Model Filters_Proofs Interp_Model Interp_Spec.

Lemma NoDup_app_snoc {A} (l : list A) a : NoDup l -> ~ In a l -> NoDup (l ++ [a]).
Proof.
  intros H N. apply NoDup_rev in H. rewrite <- (rev_involutive (l ++ [a])), rev_app_distr. apply NoDup_rev. cbn [rev app].
  constructor; [rewrite <- in_rev; exact N|exact H].
Qed.

(** ** Polynomials over a field: at most deg p roots *)
Section Poly.
Context (F : cfield).
Add Ring Fr2 : (cth F).
Add Field Ff2 : (fth F).
Local Open Scope cring_scope.
Implicit Types t a : F.

Fixpoint horner (p : list F) t : F := match p with [] => 0 | a :: q => a + t * horner q t end.
Lemma peval_horner p t : peval p t = horner p t.
Proof.
  unfold peval. induction p as [|a p IH]; [reflexivity|]. cbn [length horner]. rewrite (sum_S_l F). cbn [cpow].
  change (samp (a :: p) 0) with a. rewrite <- IH, <- (sum_mul_l F). 
  rewrite (sum_ext F (length p) _ (fun i => t * (samp p i * cpow t i))); [ring|].
  intros i _. change (samp (a :: p) (S i)) with (samp p i). cbn [cpow]. ring.
Qed.
(** synthetic division by t - a *)
Fixpoint sdiv (p : list F) a : list F :=
  match p with [] => [] | _ :: q => match q with [] => [] | _ => horner q a :: sdiv q a end end.
Lemma sdiv_ok p a t : horner p t - horner p a = (t - a) * horner (sdiv p a) t.
Proof.
  induction p as [|c p IH]; [cbn; ring|]. cbn [sdiv horner]. destruct p as [|d p]; [cbn; ring|].
  cbn [horner sdiv] in *. set (A := horner (sdiv (d :: p) a) t) in *. 
  replace (c + t * (d + t * horner p t) - (c + a * (d + a * horner p a)))
    with (t * ((d + t * horner p t) - (d + a * horner p a)) + (t - a) * (d + a * horner p a)) by ring.
  rewrite IH. cbn [sdiv] in A. fold A. ring.
Qed.
Lemma sdiv_len p a : length (sdiv p a) = (length p - 1)%nat.
Proof. induction p as [|c [|d p] IH]; [reflexivity..|]. cbn [sdiv length] in *. rewrite IH. lia. Qed.
Lemma fcancel (x y : F) : x <> 0 -> x * y = 0 -> y = 0.
Proof. intros Hx H. replace y with (finv x * (x * y)) by (field; exact Hx). rewrite H. ring. Qed.
Lemma fsub_ne (x y : F) : x <> y -> x - y <> 0.
Proof. intros H C. apply H. replace x with (x - y + y) by ring. rewrite C. ring. Qed.
Lemma horner_roots : forall l p, NoDup l -> (length p <= length l)%nat ->
  (forall a, In a l -> horner p a = 0) -> forall t, horner p t = 0.
Proof.
  induction l as [|a l IH]; intros p ND L H t.
  - destruct p; [reflexivity|cbn in L; lia].
  - inversion ND as [|? ? Hn ND']; subst.
    assert (Q : forall t, horner (sdiv p a) t = 0).
    { apply IH; [exact ND'|rewrite sdiv_len; cbn in L; lia|]. intros b Hb.
      apply (fcancel (b - a)); [apply fsub_ne; intros ->; contradiction|].
      rewrite <- sdiv_ok, !H by (cbn; auto). ring. }
    pose proof (sdiv_ok p a t) as S. rewrite Q, (H a (or_introl eq_refl)) in S.
    replace (horner p t) with (horner p t - 0) by ring. rewrite S. ring.
Qed.

Definition poly (n : nat) (f : F -> F) : Prop := exists p, (length p <= n)%nat /\ forall t, f t = horner p t.
Fixpoint padd (p q : list F) : list F :=
  match p, q with [], _ => q | _, [] => p | a :: p', b :: q' => (a + b) :: padd p' q' end.
Lemma padd_ok p : forall q t, horner (padd p q) t = horner p t + horner q t.
Proof.
  induction p as [|a p IH]; intros [|b q] t; cbn [padd horner]; try ring. rewrite IH. ring.
Qed.
Lemma padd_len p : forall q n, (length p <= n -> length q <= n -> length (padd p q) <= n)%nat.
Proof.
  induction p as [|a p IH]; intros [|b q] n; cbn [padd length]; try lia. intros H1 H2.
  destruct n; [lia|]. specialize (IH q n). lia.
Qed.
Lemma scale_ok c p t : horner (map (cmul c) p) t = c * horner p t.
Proof. induction p as [|a p IH]; cbn [map horner]; [ring|]. rewrite IH. ring. Qed.
Lemma poly_ext n f g : (forall t, f t = g t) -> poly n f -> poly n g.
Proof. intros E (p & L & H). exists p. split; [exact L|]. intros t. rewrite <- E. apply H. Qed.
Lemma poly_le n m f : (n <= m)%nat -> poly n f -> poly m f.
Proof. intros E (p & L & H). exists p. split; [lia|exact H]. Qed.
Lemma poly_add n f g : poly n f -> poly n g -> poly n (fun t => f t + g t).
Proof.
  intros (p & L & H) (q & M & G). exists (padd p q). split; [apply padd_len; assumption|]. intros t. rewrite padd_ok, H, G. reflexivity.
Qed.
Lemma poly_scale n c f : poly n f -> poly n (fun t => c * f t).
Proof. intros (p & L & H). exists (map (cmul c) p). rewrite map_length. split; [exact L|]. intros t. rewrite scale_ok, H. reflexivity. Qed.
Lemma poly_const c : poly 1 (fun _ => c).
Proof. exists [c]. split; [reflexivity|]. intros t. cbn. ring. Qed.
Lemma poly_mulX n f : poly n f -> poly (S n) (fun t => t * f t).
Proof. intros (p & L & H). exists (0 :: p). split; [cbn; lia|]. intros t. cbn [horner]. rewrite H. ring. Qed.
Lemma poly_mul_lin n f k c : poly n f -> poly (S n) (fun t => f t * ((t - k) / c)).
Proof.
  intros H. apply (poly_ext _ (fun t => finv c * (t * f t + (- k) * f t))).
  - intros t. rewrite (Fdiv_def (fth F)). ring.
  - apply poly_scale, poly_add; [apply poly_mulX, H|]. apply poly_scale. apply (poly_le n); [lia|exact H].
Qed.
Lemma poly_sum n m (f : nat -> F -> F) : (forall j, (j < m)%nat -> poly n (f j)) -> poly n (fun t => sum m (fun j => f j t)).
Proof.
  intros H. induction m as [|m IH]; [exists []; split; [cbn; lia|reflexivity]|]. cbn [sum].
  apply poly_add; [apply IH; intros; apply H; lia|apply H; lia].
Qed.
Lemma poly_peval p : poly (length p) (peval p).
Proof. exists p. split; [lia|]. apply peval_horner. Qed.

(** ** Lagrange *)

Lemma lprod_poly j n : poly (if (j <? n)%nat then n else S n) (fun t => lagrange_prod t j n).
Proof.
  induction n as [|n IH]; [exact (poly_const c1)|]. cbn [lagrange_prod].
  destruct (Nat.eqb_spec n j) as [->|Hne].
  - rewrite Nat.ltb_irrefl in IH. destruct (Nat.ltb_spec j (S j)); [|lia]. exact IH.
  - apply (poly_le (S (if (j <? n)%nat then n else S n))).
    { destruct (Nat.ltb_spec j n), (Nat.ltb_spec j (S n)); lia. }
    apply poly_mul_lin. exact IH.
Qed.
Lemma lprod_zero j k n : (k < n)%nat -> k <> j -> lagrange_prod (cnat k : F) j n = 0.
Proof.
  intros Hk Hne. induction n as [|n IH]; [lia|]. cbn [lagrange_prod].
  destruct (Nat.eq_dec k n) as [->|Hn].
  - destruct (Nat.eqb_spec n j); [congruence|]. rewrite (Fdiv_def (fth F)). ring.
  - rewrite IH by lia. destruct (n =? j)%nat; [reflexivity|ring].
Qed.
Lemma lprod_one d j n : distinct_ints F d -> (n <= d + 1)%nat -> (j <= d)%nat -> lagrange_prod (cnat j : F) j n = 1.
Proof.
  intros D Hn Hj. induction n as [|n IH]; [reflexivity|]. cbn [lagrange_prod]. rewrite IH by lia.
  destruct (Nat.eqb_spec n j) as [|Hne]; [reflexivity|]. unfold cint. field. apply fsub_ne. intros C. apply Hne. symmetry. apply (D j n); try lia. exact C.
Qed.
Lemma nodes_nodup d : distinct_ints F d -> NoDup (map (cnat (K := F)) (seq 0 (d + 1))).
Proof.
  intros D.
  assert (G : forall n, (n <= d + 1)%nat -> NoDup (map (cnat (K := F)) (seq 0 n))).
  { induction n as [|n IH]; intros Hn; [constructor|]. rewrite seq_S, map_app. cbn [map Nat.add].
    apply NoDup_app_snoc. apply IH; lia. intros C. apply in_map_iff in C. destruct C as (m & E & Hm). apply in_seq in Hm.
    apply (D m n) in E; lia. }
  apply G. lia.
Qed.
Lemma lagrange_poly d p t : distinct_ints F d -> (length p <= d + 1)%nat ->
  sum (d + 1) (fun j => lagrange_prod t j (d + 1) * peval p (cnat j)) = peval p t.
Proof.
  intros D L.
  assert (P : poly (d + 1) (fun t => sum (d + 1) (fun j => peval p (cnat j) * lagrange_prod t j (d + 1)) + (- (1)) * peval p t)).
  { apply poly_add.
    - apply (poly_sum (d + 1) (d + 1) (fun j t => peval p (cnat j) * lagrange_prod t j (d + 1))). intros j Hj. apply poly_scale.
      pose proof (lprod_poly j (d + 1)) as Q. destruct (Nat.ltb_spec j (d + 1)); [exact Q|lia].
    - apply poly_scale. apply (poly_le (length p)); [exact L|apply poly_peval]. }
  destruct P as (r & Lr & Hr).
  assert (Z : horner r t = 0).
  { apply (horner_roots (map (cnat (K := F)) (seq 0 (d + 1)))).
    - apply nodes_nodup, D.
    - rewrite map_length, seq_length. exact Lr.
    - intros a Ha. apply in_map_iff in Ha. destruct Ha as (k & <- & Hk). apply in_seq in Hk. rewrite <- Hr.
      rewrite (sum_single F (d + 1) _ k).
      + rewrite (lprod_one d) by (assumption || lia). ring.
      + lia.
      + intros i Hi Hne. rewrite lprod_zero by (congruence || lia). ring. }
  rewrite <- Hr in Z. 
  rewrite (sum_ext F (d + 1) _ (fun j => peval p (cnat j) * lagrange_prod t j (d + 1))) by (intros; ring).
  set (S := sum (d + 1) _) in *. replace S with (S + - (1) * peval p t + peval p t) by ring. rewrite Z. ring.
Qed.

Lemma itrp_step_ok (h x : list F) K k : (0 < K)%nat -> length h = K -> (K <= length x)%nat ->
  itrp_step h x K k = Ok (sum K (fun i => samp h i * samp x ((i + k) mod K))).
Proof.
  intros HK Lh Lx. unfold itrp_step. rewrite Lh, Nat.eqb_refl. cbn [negb].
  assert (G : forall n, (n <= K)%nat -> loop n (fun i s => let* m := imod (i + k) K in let* v := vget x m in
                     let* c := vget h i in Ok (s + c * v)) 0 = Ok (sum n (fun i => samp h i * samp x ((i + k) mod K)))).
  { induction n as [|n IH]; intros Hn; [reflexivity|]. rewrite loop_S, IH by lia. cbn [bind sum].
    rewrite imod_ok by lia. cbn [bind]. pose proof (Nat.mod_upper_bound (n + k) K ltac:(lia)).
    rewrite (vget_ok x _ (0 : F)), (vget_ok h _ (0 : F)) by lia. reflexivity. }
  apply G. lia.
Qed.
Lemma lagrange_step d (tau : F) (p x : list F) k : distinct_ints F d -> (length p <= d + 1)%nat -> (d + 1 <= length x)%nat ->
  (forall i, (i <= d)%nat -> samp x ((i + k) mod (d + 1)) = peval p (cnat i)) ->
  itrp_step (lagrange_coefs d tau) x (d + 1) k = Ok (peval p ((cnat d - 1) / cnat 2 + tau)).
Proof.
  intros D L Lx Hx. rewrite itrp_step_ok; [|lia|unfold lagrange_coefs; rewrite map_length, seq_length; reflexivity|exact Lx].
  f_equal. rewrite <- (lagrange_poly d) by assumption. apply sum_ext. intros j Hj. rewrite Hx by lia. f_equal.
  unfold samp, lagrange_coefs. 
  rewrite nth_indep with (d' := lagrange_prod (lagrange_t d tau) 0 (d + 1)) by (rewrite map_length, seq_length; exact Hj).
  rewrite (map_nth (fun j => lagrange_prod (lagrange_t d tau) j (d + 1))), seq_nth by exact Hj. reflexivity.
Qed.
Lemma linear_step (tau a b : F) (x : list F) k : (2 <= length x)%nat ->
  (forall i, (i <= 1)%nat -> samp x ((i + k) mod 2) = a + b * cnat i) ->
  itrp_step (lin_coefs tau) x 2 k = Ok (a + b * tau).
Proof.
  intros Lx Hx. rewrite itrp_step_ok; [|lia|reflexivity|exact Lx]. cbn [sum]. rewrite (Hx 0%nat), (Hx 1%nat) by lia. f_equal.
  unfold lin_coefs, samp. cbn [nth cnat]. ring.
Qed.

(** ** Cardinal splines *)
Lemma two_ne : cnat (K := F) 2 <> 0 -> 1 + 1 <> 0 :> F.
Proof. intros H C. apply H. cbn [cnat]. transitivity (1 + 1 : F); [ring|exact C]. Qed.
Lemma cspline_sum (t c : F) : cnat (K := F) 2 <> 0 -> sum 4 (samp (cspline_filtre t c)) = 1.
Proof. intros H%two_ne. unfold cspline_filtre, cspline_calc, samp. cbn [sum nth]. cbn [cnat]. field. exact H. Qed.
Lemma cspline_knots (c : F) : cnat (K := F) 2 <> 0 -> cspline_filtre 0 c = [0; 1; 0; 0] /\ cspline_filtre 1 c = [0; 0; 1; 0].
Proof.
  intros H%two_ne. unfold cspline_filtre, cspline_calc, samp. cbn [nth]. cbn [cnat].
  split; repeat (apply f_equal2; [field; exact H|]); reflexivity.
Qed.
(** with zero tension, exact on quadratic polynomials (samples at -1, 0, 1, 2) *)
Lemma cspline_quadratic (a b e t : F) (x : list F) k : cnat (K := F) 2 <> 0 -> (4 <= length x)%nat ->
  (forall i, (i < 4)%nat -> samp x ((i + k) mod 4) = let u := cnat i - 1 in a + b * u + e * u * u) ->
  itrp_step (cspline_filtre t 0) x 4 k = Ok (a + b * t + e * t * t).
Proof.
  intros H%two_ne Lx Hx. rewrite itrp_step_ok; [|lia|reflexivity|exact Lx]. cbn [sum]. rewrite !Hx by lia. f_equal.
  unfold cspline_filtre, cspline_calc, samp. cbn [nth]. cbn [cnat]. field. exact H.
Qed.
Lemma cspline_lut_col n (c : F) i : (i <= n)%nat -> nth i (cspline_lut n c) [] = cspline_filtre (cnat i / cnat n) c.
Proof.
  intros Hi. unfold cspline_lut. 
  rewrite nth_indep with (d' := cspline_filtre (cnat 0 / cnat n) c) by (rewrite map_length, seq_length; lia).
  rewrite (map_nth (fun i => cspline_filtre (cnat i / cnat n) c)), seq_nth by lia. reflexivity.
Qed.
End Poly.
