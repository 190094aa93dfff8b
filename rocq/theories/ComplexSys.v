(** The complex numbers, as pairs of real numbers, with exp(-2 i pi / n): the
    instance of [dsys] the code works with (up to rounding).  Rests on the
    standard library's axioms of the real numbers. *)
From Coq Require Import Reals Lra.
From Verif Require Import Base BaseLemmas DftSys.
Local Open Scope R_scope.

Definition C : Type := (R * R)%type.
Definition Cadd (a b : C) : C := (fst a + fst b, snd a + snd b).
Definition Csub (a b : C) : C := (fst a - fst b, snd a - snd b).
Definition Copp (a : C) : C := (- fst a, - snd a).
Definition Cmul (a b : C) : C := (fst a * fst b - snd a * snd b, fst a * snd b + snd a * fst b).
Definition Cnorm2 (a : C) : R := fst a * fst a + snd a * snd a.
Definition Cinv (a : C) : C := (fst a / Cnorm2 a, - snd a / Cnorm2 a).
Definition Cdiv (a b : C) : C := Cmul a (Cinv b).
Definition Cconj (a : C) : C := (fst a, - snd a).

Lemma C_ext (a b : C) : fst a = fst b -> snd a = snd b -> a = b.
Proof. destruct a, b; cbn. intros -> ->. reflexivity. Qed.
Ltac cring := intros; apply C_ext; cbn; ring.

Lemma Cth : ring_theory (0, 0) (1, 0) Cadd Cmul Csub Copp (@eq C).
Proof. constructor; cring. Qed.
Lemma Cnorm2_ne (a : C) : a <> (0, 0) -> Cnorm2 a <> 0.
Proof.
  intros H E. apply H. destruct a as [u v]. unfold Cnorm2 in E. cbn in E.
  assert (u = 0) by nra. assert (v = 0) by nra. congruence.
Qed.
Lemma Cfth : field_theory (0, 0) (1, 0) Cadd Cmul Csub Copp Cdiv Cinv (@eq C).
Proof.
  constructor; [exact Cth| |reflexivity|].
  - intros H. injection H. lra.
  - intros a Ha. pose proof (Cnorm2_ne a Ha) as N. apply C_ext; cbn; unfold Cnorm2 in *; field; exact N.
Qed.
Definition Cring : cring :=
  {| car := C; c0 := (0, 0); c1 := (1, 0); cadd := Cadd; cmul := Cmul; csub := Csub; copp := Copp; cth := Cth |}.
Definition Cfield : cfield :=
  {| fring := Cring; fdiv := (Cdiv : Cring -> Cring -> Cring); finv := (Cinv : Cring -> Cring); fth := Cfth |}.

(** exp(-2 i pi / n) *)
Definition Croot (n : nat) : Cring := (cos (2 * PI / INR n), - sin (2 * PI / INR n)).
Lemma cis_pow t k : cpow ((cos t, - sin t) : Cring) k = (cos (INR k * t), - sin (INR k * t)).
Proof.
  induction k as [|k IH].
  - cbn. rewrite Rmult_0_l, cos_0, sin_0. f_equal. ring.
  - cbn [cpow]. rewrite IH. rewrite S_INR. replace ((INR k + 1) * t) with (INR k * t + t) by ring.
    rewrite cos_plus, sin_plus. apply C_ext; cbn; ring.
Qed.
Lemma cnat_C n : cnat (K := Cring) n = (INR n, 0).
Proof. induction n as [|n IH]; [reflexivity|]. cbn [cnat]. rewrite IH, S_INR. apply C_ext; cbn; ring. Qed.

Definition Complex : dsys.
Proof.
  refine {| dfd := Cfield; conj := (Cconj : Cfield -> Cfield); root := (Croot : nat -> Cfield);
            rt := (fun n => (sqrt (INR n), 0)) : nat -> Cfield |}.
  - intros x y. apply C_ext; cbn; ring.
  - intros x y. apply C_ext; cbn; ring.
  - intros x. apply C_ext; cbn; ring.
  - intros n Hn. unfold Croot. rewrite cis_pow. replace (INR n * (2 * PI / INR n)) with (2 * PI) by (field; apply not_0_INR; lia).
    rewrite cos_2PI, sin_2PI. apply C_ext; cbn; ring.
  - intros n j Hj E. unfold Croot in E. rewrite cis_pow in E. injection E as E _.
    set (h := INR j * (PI / INR n)). replace (INR j * (2 * PI / INR n)) with (2 * h) in E by (unfold h; field; apply not_0_INR; lia).
    rewrite cos_2a_sin in E. pose proof PI_RGT_0.
    assert (0 < INR n) by (apply lt_0_INR; lia). assert (0 < INR j) by (apply lt_0_INR; lia). assert (INR j < INR n) by (apply lt_INR; lia).
    assert (0 < PI / INR n) by (apply Rdiv_lt_0_compat; assumption).
    assert (0 < sin h).
    { apply sin_gt_0; unfold h; [apply Rmult_lt_0_compat; assumption|].
      replace PI with (INR n * (PI / INR n)) at 2 by (field; lra). apply Rmult_lt_compat_r; assumption. }
    nra.
  - intros n m Hn Hm. unfold Croot. rewrite cis_pow, mult_INR.
    replace (INR m * (2 * PI / (INR n * INR m))) with (2 * PI / INR n); [reflexivity|]. field. split; apply not_0_INR; lia.
  - intros n Hn. unfold Croot. pose proof (sin2_cos2 (2 * PI / INR n)) as S. unfold Rsqr in S. apply C_ext; cbn; [|ring].
    rewrite <- S. ring.
  - intros n. rewrite cnat_C. pose proof (sqrt_sqrt (INR n) (pos_INR n)) as S. apply C_ext; cbn [fst snd cmul Cfield fring Cring Cmul dfd]; [|ring]. transitivity (sqrt (INR n) * sqrt (INR n)); [ring|exact S].
  - intros n m. rewrite mult_INR, sqrt_mult by apply pos_INR. apply C_ext; cbn; ring.
  - intros n. apply C_ext; cbn; ring.
  - intros n E. rewrite cnat_C in E. injection E as E. apply (not_0_INR (S n)); [lia|exact E].
Defined.
