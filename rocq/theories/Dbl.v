(** IEEE 754 double precision arithmetic, as rounding of real numbers (Flocq):
    radix 2, 53 bits of precision, smallest exponent -1074, round to nearest even.
    Overflow and NaN are not represented. *)
From Coq Require Import ZArith Reals Lra Lia.
From Flocq Require Import Core.
Local Open Scope R_scope.
Definition dbl (x : R) : R := round radix2 (FLT_exp (-1074) 53) ZnearestE x.

Lemma dbl_le x y : x <= y -> dbl x <= dbl y.
Proof. intros H. unfold dbl. apply round_le; [apply FLT_exp_valid; reflexivity|apply valid_rnd_N|exact H]. Qed.
(** m 2^e is exact when |m| < 2^53 *)
Lemma dbl_dyadic m e : (Z.abs m < 2 ^ 53)%Z -> (-1074 <= e)%Z -> dbl (IZR m * bpow radix2 e) = IZR m * bpow radix2 e.
Proof.
  intros Hm He. unfold dbl. apply round_generic; [apply valid_rnd_N|]. apply generic_format_FLT.
  apply (FLT_spec radix2 (-1074) 53 _ (Float radix2 m e)); [reflexivity|exact Hm|exact He].
Qed.
Lemma dbl_int n : (Z.abs n < 2 ^ 53)%Z -> dbl (IZR n) = IZR n.
Proof. intros H. rewrite <- (Rmult_1_r (IZR n)). change 1 with (bpow radix2 0). apply dbl_dyadic; [exact H|lia]. Qed.
Lemma dbl_int_pow n m k : (n = m * 2 ^ k)%Z -> (0 <= k)%Z -> (Z.abs m < 2 ^ 53)%Z -> dbl (IZR n) = IZR n.
Proof.
  intros -> Hk Hm. rewrite mult_IZR. change 2%Z with (radix_val radix2). rewrite (IZR_Zpower radix2) by exact Hk. apply dbl_dyadic; [exact Hm|lia].
Qed.
Lemma dbl_lower n x : (Z.abs n < 2 ^ 53)%Z -> IZR n <= x -> IZR n <= dbl x.
Proof. intros Hn H. rewrite <- (dbl_int n Hn). apply dbl_le. exact H. Qed.
(** n - 2^-k *)
Lemma dbl_upper n k x : (0 <= k <= 1074)%Z -> (Z.abs (n * 2 ^ k - 1) < 2 ^ 53)%Z -> x <= IZR n - bpow radix2 (- k) -> dbl x <= IZR n - bpow radix2 (- k).
Proof.
  intros Hk Hn H. assert (E : IZR n - bpow radix2 (- k) = IZR (n * 2 ^ k - 1) * bpow radix2 (- k)).
  { rewrite minus_IZR, mult_IZR. change 2%Z with (radix_val radix2). rewrite (IZR_Zpower radix2) by lia.
    rewrite Rmult_minus_distr_r, Rmult_assoc, <- bpow_plus. replace (k + - k)%Z with 0%Z by lia. cbn [bpow]. ring. }
  rewrite E in *. rewrite <- (dbl_dyadic (n * 2 ^ k - 1) (- k)) by (try exact Hn; lia). apply dbl_le. exact H.
Qed.
Lemma trunc_unique n x : (0 <= n)%Z -> IZR n <= x < IZR n + 1 -> Ztrunc x = n.
Proof.
  intros Hn [H1 H2]. rewrite Ztrunc_floor. 2:{ apply Rle_trans with (IZR n); [apply (IZR_le 0); exact Hn|exact H1]. }
  apply Zfloor_imp. rewrite plus_IZR. auto.
Qed.
Lemma bpow_pos k : 0 < bpow radix2 k.
Proof. apply bpow_gt_0. Qed.
