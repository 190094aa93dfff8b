(** Properties C09 to C15 and C46: real-time filters and re-packetizer. *)
From Coq Require Import QArith_base. Close Scope Q_scope.
From Verif Require Import Base BaseLemmas Fields Filters_Model Filters_Spec Filters_Proofs Filters_Proofs2 Filters_Proofs3.

(** ** C09: fixed-size buffering *)

(** The callback receives the consecutive packets of [N] samples of the whole
    input; what is left stays in the buffer. *)
Theorem C09_packets : forall (A : Type) (junk : A) N blocks, 0 < N ->
  exists s, run (fun s x => tampon_step junk (S (length x)) s x) (tampon_init N) blocks
              = Ok (s, packets N (concat blocks)) /\
    tp_windex s = length (remainder N (concat blocks)) /\
    firstn (tp_windex s) (tp_buf s) = remainder N (concat blocks).
Proof. exact @tampon_run. Qed.
Print Assumptions C09_packets.

(** The packets and the remainder are what the English says: [N] samples each,
    fewer than [N] in the remainder, nothing lost, duplicated or reordered. *)
Theorem C09_packets_spec : forall (A : Type) N (l : list A), 0 < N ->
  (forall p, In p (packets N l) -> length p = N) /\ length (remainder N l) < N /\
  concat (packets N l) ++ remainder N l = l.
Proof.
  intros A N l HN. split; [intros p; apply packets_all; exact HN|].
  split; [apply remainder_lt; exact HN|apply packets_remainder; exact HN].
Qed.
Print Assumptions C09_packets_spec.

(** Finding: [N = 0] makes the first non-empty call loop for ever. *)
Theorem C09_zero_terminates_refuted : forall (A : Type) (junk : A) x, x <> [] ->
  forall fuel, tampon_step junk fuel (tampon_init 0) x = Diverge.
Proof. exact @tampon_zero_diverges. Qed.
Print Assumptions C09_zero_terminates_refuted.

(** Finding: after a reconfiguration from N to a smaller M, a call with M+1
    samples delivers a block of N samples (the old buffer), whatever the samples. *)
Theorem C09_reconfigure_refuted : forall (A : Type) (junk a b c d : A),
  exists s1 s2, tampon_step junk 9 (tampon_init 4) [a] = Ok (s1, []) /\
    tampon_step junk 9 (tampon_configure s1 2) [b; c; d] = Ok (s2, [[b; c; junk; junk]]).
Proof.
  intros. exists (mktampon 4 1 [a; junk; junk; junk]), (mktampon 2 1 [d; c; junk; junk]).
  split; vm_compute; reflexivity.
Qed.
Print Assumptions C09_reconfigure_refuted.

Example C09_case :
  run (fun s x => tampon_step 0 (S (length x)) s x) (tampon_init 3) [[1; 2]; []; [3; 4; 5; 6; 7]; [8]]
  = Ok (mktampon 3 2 [7; 8; 6], [[1; 2; 3]; [4; 5; 6]]).
Proof. reflexivity. Qed.

(** ** C10: FIR filter *)
Theorem C10_convolution : forall (K : cring) (h : list K) (blocks : list (list K)), h <> [] ->
  exists s y, run fir_step (fir_init h) blocks = Ok (s, y) /\
    length y = length (concat blocks) /\
    forall n, n < length y -> samp y n = conv h (concat blocks) n.
Proof. exact fir_run. Qed.
Print Assumptions C10_convolution.

(** Finding: with no coefficients every call throws. *)
Theorem C10_empty_throws : forall (K : cring) (blocks : list (list K)) b,
  run fir_step (fir_init []) (b :: blocks) = Exc.
Proof. exact fir_empty. Qed.
Print Assumptions C10_empty_throws.

Example C10_case : exists s, run fir_step (fir_init (K := Zring) [1; 10; 100]%Z) [[1; 2]; [3]; []; [4; 5]]%Z
  = Ok (s, [1; 12; 123; 234; 345]%Z).
Proof. eexists. vm_compute. reflexivity. Qed.

(** ** C11: delay line *)
Theorem C11_delay : forall (K : cring) r (blocks : list (list K)),
  exists s y, run delay_step (delay_init r) blocks = Ok (s, y) /\
    length y = length (concat blocks) /\
    forall n, n < length y -> samp y n = sampZ (concat blocks) (Z.of_nat n - Z.of_nat r).
Proof. exact delay_run. Qed.
Print Assumptions C11_delay.

Example C11_case : exists s, run delay_step (delay_init (K := Zring) 2) [[1]; [2; 3; 4]; [5]]%Z
  = Ok (s, [0; 0; 1; 2; 3]%Z).
Proof. eexists. vm_compute. reflexivity. Qed.

(** ** C12: decimator *)
Theorem C12_decimates : forall (A : Type) (d : A) R blocks, 0 < R ->
  exists s, run decim_step (decim_init R) blocks
    = Ok (s, map (fun m => nth (m * R) (concat blocks) d) (seq 0 ((length (concat blocks) + R - 1) / R))).
Proof. exact @decim_run. Qed.
Print Assumptions C12_decimates.

Example C12_case : exists s, run decim_step (decim_init 3) [[1; 2]; [3]; []; [4; 5; 6; 7; 8]]
  = Ok (s, [1; 4; 7]).
Proof. eexists. vm_compute. reflexivity. Qed.

(** ** C13: rational filter *)
Theorem C13_difference_equation : forall (K : cfield) (b a : list K) (blocks : list (list K)),
  0 < length b -> 2 <= length a -> samp a 0 <> c0 ->
  exists s y, run iir_step (iir_init b a) blocks = Ok (s, y) /\
    diff_eq b a (concat blocks) y.
Proof. exact iir_run. Qed.
Print Assumptions C13_difference_equation.

Theorem C13_unique : forall (K : cfield) (b a x y y' : list K), a <> [] -> samp a 0 <> c0 ->
  diff_eq b a x y -> diff_eq b a x y' -> y = y'.
Proof. exact diff_eq_unique. Qed.
Print Assumptions C13_unique.

Theorem C13_constant_denominator_refuted : forall (K : cfield) (b : list K) d0 x t blocks, 0 < length b ->
  run iir_step (iir_init b [d0]) ((x :: t) :: blocks) = UB.
Proof. exact iir_const_den. Qed.
Print Assumptions C13_constant_denominator_refuted.

Example C13_case : outs (run iir_step (iir_init (K := Qcfield) [qc 1 1; qc 1 1] [qc 2 1; qc (-1) 1]) [[qc 1 1]; [qc 0 1; qc 0 1]])
  = Ok [1 # 2; 3 # 4; 3 # 8]%Q /\ samp (K := Qcfield) [qc 2 1; qc (-1) 1] 0 <> c0.
Proof. split; [vm_compute; reflexivity|]. intros H. vm_compute in H. discriminate. Qed.

(** ** C14: moving average *)
Theorem C14_mean : forall (K : cfield) k (blocks : list (list K)), 0 < k ->
  exists s y, run mg_step (mg_init k) blocks = Ok (s, y) /\
    length y = length (concat blocks) /\
    forall n, n < length y -> samp y n =
      fdiv (sum k (fun i => sampZ (concat blocks) (Z.of_nat n - Z.of_nat i))) (cnat k).
Proof. exact mg_run. Qed.
Print Assumptions C14_mean.

Example C14_case : outs (run mg_step (mg_init (K := Qcfield) 2) [[qc 1 1; qc 2 1]; [qc 4 1]])
  = Ok [1 # 2; 3 # 2; 3 # 1]%Q.
Proof. vm_compute. reflexivity. Qed.

(** ** C15: first-order recursive filters *)
Theorem C15_lexp : forall (K : cring) (g : K) blocks, exists s y, run lexp_step (lexp_init g) blocks = Ok (s, y) /\
  length y = length (concat blocks) /\
  forall n, n < length y ->
    let prev := if n =? 0 then samp (concat blocks) 0 else samp y (n - 1) in
    samp y n = cadd prev (cmul g (csub (samp (concat blocks) n) prev)).
Proof. exact lexp_run'. Qed.
Print Assumptions C15_lexp.

Theorem C15_lexp_constant : forall (K : cring) (g c : K) n,
  exists s, run lexp_step (lexp_init g) [repeat c n] = Ok (s, repeat c n).
Proof. exact lexp_const. Qed.
Print Assumptions C15_lexp_constant.

Theorem C15_dc : forall (K : cring) (a : K) blocks, exists s y, run dc_step (dc_init a) blocks = Ok (s, y) /\
  length y = length (concat blocks) /\
  forall n, n < length y -> samp y n =
    cmul a (cadd (csub (samp (concat blocks) n) (sampZ (concat blocks) (Z.of_nat n - 1))) (sampZ y (Z.of_nat n - 1))).
Proof. exact dc_run. Qed.
Print Assumptions C15_dc.

Theorem C15_dc_constant : forall (K : cring) (a c : K) n,
  exists s y, run dc_step (dc_init a) [repeat c n] = Ok (s, y) /\ length y = n /\
  forall i, i < n -> samp y i = cmul (cpow a (S i)) c.
Proof. exact dc_const. Qed.
Print Assumptions C15_dc_constant.

Example C15_case : exists s, run lexp_step (lexp_init (K := Zring) 2%Z) [[1]; [2; 3]]%Z = Ok (s, [1; 3; 3]%Z).
Proof. eexists. vm_compute. reflexivity. Qed.

(** ** C46: second-order sections *)

(** Direct form I: the difference equation at every output index, the signals
    being continued to the left by the first input sample. *)
Theorem C46_direct_form_1 : forall (K : cfield) (b0 b1 b2 a0 a1 a2 : K) blocks s,
  a0 <> c0 -> sois_configure false b0 b1 b2 a0 a1 a2 FormeDirecte1 = Ok s ->
  exists s' y, run sois_step s blocks = Ok (s', y) /\ length y = length (concat blocks) /\
  forall n, n < length y ->
    let X k := ext_left (samp (concat blocks) 0) (concat blocks) k in
    let Y k := ext_left (samp (concat blocks) 0) y k in
    let N := Z.of_nat n in
    (a0 * Y N + a1 * Y (N - 1)%Z + a2 * Y (N - 2)%Z = b0 * X N + b1 * X (N - 1)%Z + b2 * X (N - 2)%Z)%K.
Proof. exact sois_df1_run. Qed.
Print Assumptions C46_direct_form_1.

(** Direct form II: same, for the auxiliary signal of the two half-filters. *)
Theorem C46_direct_form_2 : forall (K : cfield) (b0 b1 b2 a0 a1 a2 : K) blocks s,
  a0 <> c0 -> sois_configure false b0 b1 b2 a0 a1 a2 FormeDirecte2 = Ok s ->
  exists s' y d, run sois_step s blocks = Ok (s', y) /\ length y = length (concat blocks) /\
  length d = length y /\
  forall n, n < length y ->
    let D k := ext_left (samp (concat blocks) 0) d k in
    let N := Z.of_nat n in
    (a0 * D N + a1 * D (N - 1)%Z + a2 * D (N - 2)%Z = a0 * samp (concat blocks) n /\
     a0 * samp y n = b0 * D N + b1 * D (N - 1)%Z + b2 * D (N - 2)%Z)%K.
Proof. exact sois_df2_run. Qed.
Print Assumptions C46_direct_form_2.

(** ... hence the input/output difference equation from the third sample on. *)
Theorem C46_direct_form_2_equation : forall (K : cfield) (b0 b1 b2 a0 a1 a2 : K) blocks s,
  a0 <> c0 -> sois_configure false b0 b1 b2 a0 a1 a2 FormeDirecte2 = Ok s ->
  exists s' y, run sois_step s blocks = Ok (s', y) /\ length y = length (concat blocks) /\
  forall n, 2 <= n -> n < length y ->
    let x := samp (concat blocks) in
    (a0 * samp y n + a1 * samp y (n - 1)%nat + a2 * samp y (n - 2)%nat
     = b0 * x n + b1 * x (n - 1)%nat + b2 * x (n - 2)%nat)%K.
Proof. exact sois_df2_eq. Qed.
Print Assumptions C46_direct_form_2_equation.

(** A chain, fed with any blocks, gives what its sections give when each
    processes the whole signal in turn, then the gain, or the final
    first-order section (whose presence leaves the gain unused: see
    [ChaineSOIS::step]). *)
Inductive in_series {K : cring} : list (sois K) -> list K -> list K -> Prop :=
| series_nil : forall x, in_series [] x x
| series_cons : forall s ss blocks s' y z, run sois_step s blocks = Ok (s', y) ->
    in_series ss y z -> in_series (s :: ss) (concat blocks) z.
Theorem C46_chain : forall (K : cring) g (ss : list (sois K)) f blocks,
  exists c' y z, run chaine_step (mkchaine g ss f) blocks = Ok (c', y) /\
    in_series ss (concat blocks) z /\ length y = length (concat blocks) /\
    match f with
    | None => y = map (fun v => cmul v g) z
    | Some q => exists q', fos_step q z = Ok (q', y)
    end.
Proof.
  intros K g ss f blocks. rewrite (additive_run _ (chaine_additive K)).
  destruct (chaine_total K (mkchaine g ss f) (concat blocks)) as (c' & y & E & L).
  generalize dependent (concat blocks). clear blocks. intros x E L.
  unfold chaine_step in E. cbn [ch_sections ch_rii1 ch_gain] in E.
  destruct (sections_total K ss x) as (s1 & z & Ez & Lz). rewrite Ez in E. cbn [bind] in E.
  assert (S : in_series ss x z).
  { clear E L. revert x s1 z Ez Lz. induction ss as [|s t IH]; intros x s1 z Ez Lz; cbn [sections_step] in Ez.
    - injection Ez as _ <-. constructor.
    - destruct (sois_step_total K x s) as (s' & u & Eu & Lu). rewrite Eu in Ez. cbn [bind] in Ez.
      destruct (sections_total K t u) as (t' & w & Ew & Lw). rewrite Ew in Ez. cbn [bind] in Ez. injection Ez as _ <-.
      replace x with (concat [x]) by apply app_nil_r. apply series_cons with (s' := s') (y := u).
      + cbn [run]. rewrite Eu. cbn [bind]. rewrite app_nil_r. reflexivity.
      + apply (IH u t' w Ew). exact Lw. }
  exists c', y, z. unfold chaine_step. cbn [ch_sections ch_rii1 ch_gain]. rewrite Ez. cbn [bind].
  destruct f as [q|].
  - destruct (fos_step q z) as [[q' u]| | |] eqn:F; cbn [bind] in E; try discriminate. injection E as <- <-.
    split; [reflexivity|]. split; [exact S|]. split; [exact L|]. exists q'. reflexivity.
  - injection E as <- <-. split; [reflexivity|]. split; [exact S|]. split; [exact L|]. reflexivity.
Qed.
Print Assumptions C46_chain.

(** The first-order section: y_n = - a1 y_(n-1) + b0 x_n + b1 x_(n-1), zero
    initial conditions. *)
Theorem C46_first_order_section : forall (K : cring) (b0 b1 a1 : K) blocks,
  exists s y, run fos_step (fos_configure b0 b1 a1) blocks = Ok (s, y) /\
   length y = length (concat blocks) /\
   forall n, n < length y ->
     (samp y n + a1 * sampZ y (Z.of_nat n - 1)%Z = b0 * samp (concat blocks) n + b1 * sampZ (concat blocks) (Z.of_nat n - 1)%Z)%K.
Proof. exact fos_run. Qed.
Print Assumptions C46_first_order_section.

(** Finding: the two forms do not agree on the first sample: gain 2, a pole in
    z = -1, input 1. *)
Theorem C46_forms_agree_refuted : exists s1 s2 : sois Qcfield,
  sois_configure false (qc 2 1) (qc 0 1) (qc 0 1) (qc 1 1) (qc 1 1) (qc 0 1) FormeDirecte1 = Ok s1 /\
  sois_configure false (qc 2 1) (qc 0 1) (qc 0 1) (qc 1 1) (qc 1 1) (qc 0 1) FormeDirecte2 = Ok s2 /\
  outs (run sois_step s1 [[qc 1 1]]) = Ok [1 # 1]%Q /\ outs (run sois_step s2 [[qc 1 1]]) = Ok [0 # 1]%Q.
Proof. do 2 eexists. do 2 (split; [reflexivity|]). split; vm_compute; reflexivity. Qed.
Print Assumptions C46_forms_agree_refuted.

Example C46_case : exists s : sois Qcfield,
  sois_configure false (qc 1 1) (qc 2 1) (qc 1 1) (qc 2 1) (qc 1 1) (qc 0 1) FormeDirecte1 = Ok s /\
  outs (run sois_step s [[qc 0 1]; [qc 4 1; qc 4 1]]) = Ok [0 # 1; 2 # 1; 5 # 1]%Q.
Proof. eexists. split; [reflexivity|]. vm_compute. reflexivity. Qed.
