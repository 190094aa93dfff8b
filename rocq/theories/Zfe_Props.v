(** Property C43: zero-forcing equaliser. *)
From Coq Require Import Reals Lra Lia.
From Verif Require Import Base BaseLemmas Filters_Spec Conv_Lemmas RField Zfe_Model Zfe_Spec Zfe_Proofs.
Close Scope R_scope.

(** The matrix built for a channel of m taps and n >= m equaliser taps has n+m-1 rows
    and n columns, and multiplying it by g gives the whole convolution of h and g. *)
Theorem C43_matrix {K : cring} (h : list K) n : 0 < length h -> length h <= n ->
  exists F, zfe_matrice h n = Ok F /\ length F = (n + length h - 1) * n /\
    (forall i j, i < n + length h - 1 -> j < n -> entry (n + length h - 1) F i j = sampZ h (Z.of_nat i - Z.of_nat j)) /\
    forall g i, length g = n -> (i < n + length h - 1 -> mat_vec (n + length h - 1) n F g i = conv h g i) /\
                                (n + length h - 1 <= i -> conv h g i = c0).
Proof.
  intros Hm Hn. destruct (zfe_entries h n Hm Hn) as (F & E & L & H). exists F. split; [exact E|]. split; [exact L|]. split; [exact H|].
  intros g i Lg. split; intros Hi; [apply mat_vec_conv; assumption|]. apply conv_beyond. lia.
Qed.
Print Assumptions C43_matrix.

(** Finding: with fewer equaliser taps than channel taps the matrix function writes
    outside of its matrix (the equaliser itself refuses this case). *)
Lemma loop_UB {S} (body : nat -> S -> res S) c d s : loop c body s = UB -> loop (c + d) body s = UB.
Proof. intros H. induction d as [|d IH]; [now rewrite Nat.add_0_r|]. rewrite Nat.add_succ_r, loop_S, IH. reflexivity. Qed.
Theorem C43_too_short {K : cring} (h : list K) n solve : n < length h -> zfe_matrice h n = UB /\ zfe solve h n = Exc.
Proof.
  intros Hn. split; [|unfold zfe; destruct (Nat.ltb_spec n (length h)); [reflexivity|lia]].
  unfold zfe_matrice. cbv zeta. set (m := length h) in *. set (rows := n + m - 1).
  set (body := fun i (F : list K) => loop (i + 1) (fun k F => let* v := vget h (i - k) in mset rows F i k v) F).
  assert (W : forall (F : list K) i k, length F = rows * n -> i < m -> k <= i -> (let* v := vget h (i - k) in mset rows F i k v) =
     if i + k * rows <? rows * n then Ok (upd F (i + k * rows) (samp h (i - k))) else UB).
  { intros F i k L Hi Hk. rewrite hget by (fold m; lia). cbn [bind]. unfold mset. rewrite L. reflexivity. }
  assert (In : forall i (F : list K) c, length F = rows * n -> i < m -> c <= i + 1 -> c <= n -> i <= n -> exists F', loop c (fun k F => let* v := vget h (i - k) in mset rows F i k v) F = Ok F' /\ length F' = rows * n).
  { intros i F c L Hi Hc Hc' Hi'. apply (loop_inv (fun (_ : nat) (F : list K) => length F = rows * n)); [|exact L]. intros k F0 Hk L0. rewrite (W F0 i k L0) by lia.
    assert (B : i + k * rows < rows * n) by (unfold rows in *; nia).
    destruct (Nat.ltb_spec (i + k * rows) (rows * n)); [|lia]. eexists. split; [reflexivity|]. now rewrite upd_length. }
  assert (H : loop (n + 1) body (repeat c0 (rows * n)) = UB).
  { rewrite Nat.add_1_r, loop_S.
    destruct (loop_inv (fun (_ : nat) (F : list K) => length F = rows * n) body n) with (s := repeat (c0 : K) (rows * n)) as (F & E & L).
    - intros i F Hi L. unfold body. apply In; lia || exact L.
    - apply repeat_length.
    - rewrite E. cbn [bind]. unfold body. rewrite Nat.add_1_r, loop_S.
      destruct (In n F n L) as (F' & E' & L'); [lia|lia|lia|lia|]. rewrite E'. cbn [bind]. rewrite (W F' n n L') by lia.
      destruct (Nat.ltb_spec (n + n * rows) (rows * n)); [lia|reflexivity]. }
  replace (loop m body (repeat c0 (rows * n))) with (@UB (list K)).
  - reflexivity.
  - replace m with (n + 1 + (m - (n + 1))) by lia. symmetry. apply loop_UB. exact H.
Qed.
Print Assumptions C43_too_short.

(** Finding: the delay aimed at is inside the target vector exactly when there are at
    least four taps in total; égaliseur_zfe writes outside of it for (m,n) = (1,1) and
    (1,2), and otherwise returns the solution of the linear system. *)
Theorem C43_target {K : cring} (h : list K) n solve : 0 < length h -> length h <= n ->
  (n + length h < 4 -> zfe solve h n = UB) /\
  (4 <= n + length h -> exists F b, zfe_matrice h n = Ok F /\ zfe solve h n = Ok (solve F (n + length h - 1) b) /\
     length b = n + length h - 1 /\ forall i, i < n + length h - 1 -> samp b i = impulse ((length h + n + 1) / 2) i).
Proof.
  intros Hm Hn. destruct (C43_matrix h n Hm Hn) as (F & E & _). unfold zfe. destruct (Nat.ltb_spec n (length h)); [lia|]. rewrite E. cbn [bind].
  split; intros H4.
  - destruct (Nat.ltb_spec ((length h + n + 1) / 2) (n + length h - 1)) as [C|C]; [|reflexivity].
    exfalso. assert (length h = 1 /\ (n = 1 \/ n = 2)) as [A [B|B]] by lia; rewrite A, B in C; cbn in C; lia.
  - assert (C : (length h + n + 1) / 2 < n + length h - 1) by (apply Nat.div_lt_upper_bound; lia).
    destruct (Nat.ltb_spec ((length h + n + 1) / 2) (n + length h - 1)); [|lia].
    exists F. eexists. split; [reflexivity|]. split; [reflexivity|]. split; [rewrite upd_length; apply repeat_length|].
    intros i Hi. unfold samp. rewrite nth_upd, repeat_length. destruct (Nat.ltb_spec ((length h + n + 1) / 2) (n + length h - 1)); [|lia].
    rewrite andb_true_r. unfold impulse. rewrite (Nat.eqb_sym i). destruct (_ =? _); [reflexivity|]. apply nth_repeat.
Qed.
Print Assumptions C43_target.

(** When the linear solver returns a solution of the normal equations (which is what a
    least-squares solver does), the equaliser minimises the intersymbol interference
    among all equalisers of n taps, for the delay round((m+n)/2). *)
Theorem C43_least_squares (h : list Rring) n solve g : 0 < length h -> length h <= n -> 4 <= n + length h ->
  (forall F b, zfe_matrice h n = Ok F -> length b = n + length h - 1 -> (forall i, i < n + length h - 1 -> samp b i = impulse (K := Rring) ((length h + n + 1) / 2) i) -> normal_equations (n + length h - 1) n F b (solve F (n + length h - 1) b)) ->
  zfe solve h n = Ok g -> length g = n /\
  forall g', length g' = n -> (isi h g ((length h + n + 1) / 2) <= isi h g' ((length h + n + 1) / 2))%R.
Proof.
  intros Hm Hn H4 HS Hg. destruct (C43_matrix h n Hm Hn) as (F & E & L & HE & HC).
  destruct (proj2 (C43_target h n solve Hm Hn) H4) as (F' & b & E' & G & Lb & Hb). rewrite E in E'. injection E' as <-. assert (Hg' : solve F (n + length h - 1) b = g) by congruence. clear Hg.
  destruct (HS F b E Lb Hb) as [Lg NE]. rewrite Hg' in Lg, NE. split; [exact Lg|]. intros g' Lg'.
  set (d := (length h + n + 1) / 2) in *. unfold isi. rewrite Lg, Lg'. set (rows := n + length h - 1) in *. replace (length h + n - 1) with rows by (unfold rows; lia).
  set (e := fun i => (conv h g i - impulse (K := Rring) d i)%R). set (u := fun i => (mat_vec rows n F g' i - mat_vec rows n F g i)%R).
  assert (X : sum (K := Rring) rows (fun i => ((conv h g' i - impulse (K := Rring) d i) * (conv h g' i - impulse (K := Rring) d i))%R) =
     (sum (K := Rring) rows (fun i => (e i * e i)%R) + 2 * sum (K := Rring) rows (fun i => (e i * u i)%R) + sum (K := Rring) rows (fun i => (u i * u i)%R))%R).
  { change (2 * sum (K := Rring) rows (fun i => (e i * u i)%R))%R with (cmul (c := Rring) 2%R (sum (K := Rring) rows (fun i => (e i * u i)%R))).
    rewrite <- (sum_mul_l Rring). change Rplus with (cadd (c := Rring)). rewrite <- !(sum_add Rring). apply sum_ext. intros i Hi.
    destruct (HC g i Lg) as [C1 _]. destruct (HC g' i Lg') as [C2 _]. specialize (C1 Hi). specialize (C2 Hi). unfold e, u. rewrite C1, C2. cbn. ring. }
  assert (Z : sum (K := Rring) rows (fun i => (e i * u i)%R) = 0%R).
  { transitivity (sum (K := Rring) n (fun j => (((nth j g' 0 - nth j g 0) * sum (K := Rring) rows (fun i => (entry rows F i j * e i)%R)))%R)).
    - transitivity (sum (K := Rring) rows (fun i => sum (K := Rring) n (fun j => ((nth j g' 0 - nth j g 0) * (entry rows F i j * e i))%R))).
      + apply sum_ext. intros i Hi. unfold u, mat_vec. change Rminus with (csub (c := Rring)). rewrite <- (sum_sub Rring). change Rmult with (cmul (c := Rring)).
        rewrite <- (sum_mul_l Rring). apply sum_ext. intros j Hj. unfold samp. cbn. ring.
      + rewrite (sum_swap Rring). apply sum_ext. intros j Hj. apply (sum_mul_l Rring).
    - apply sum_zero. intros j Hj. assert (N : sum (K := Rring) rows (fun i => (entry rows F i j * e i)%R) = 0%R).
      + rewrite <- (NE j Hj). apply sum_ext. intros i Hi. unfold e. destruct (HC g i Lg) as [C1 _]. rewrite (C1 Hi), (Hb i Hi). reflexivity.
      + rewrite N. cbn. ring. }
  assert (P : forall f : nat -> R, (0 <= sum (K := Rring) rows (fun i => (f i * f i)%R))%R).
  { intros f. generalize rows. intros q. induction q as [|q IH]; [cbn; lra|]. cbn [sum]. change cadd with Rplus. pose proof (Rle_0_sqr (f q)) as Q. unfold Rsqr in Q.
    apply Rplus_le_le_0_compat; [exact IH|exact Q]. }
  rewrite X, Z. specialize (P u). set (U := sum (K := Rring) rows (fun i => (u i * u i)%R)) in *. set (A := sum (K := Rring) rows (fun i => (e i * e i)%R)).
  change (A <= A + 2 * 0 + U)%R. clearbody A U. change (car Rring) with R in A, U. lra.
Qed.
Print Assumptions C43_least_squares.

(** A channel with a first and a last tap different from zero, and at least two taps,
    has no finite exact equaliser: the interference left is never zero. *)
Lemma first_last (g : list R) : (forall a, nth a g 0%R = 0%R) \/
  exists a b, a <= b /\ b < length g /\ nth a g 0%R <> 0%R /\ nth b g 0%R <> 0%R /\ (forall i, i < a -> nth i g 0%R = 0%R) /\ (forall i, b < i -> nth i g 0%R = 0%R).
Proof.
  induction g as [|x t IH]; [left; intros [|a]; reflexivity|].
  destruct IH as [IH|(a & b & H1 & H2 & H3 & H4 & H5 & H6)]; destruct (Req_dec x 0) as [E|E].
  - left. intros [|a]; [exact E|apply IH].
  - right. exists 0, 0. cbn [length nth]. repeat split; try lia; try exact E. intros [|i] Hi; [lia|apply IH].
  - right. exists (S a), (S b). cbn [length nth]. repeat split; try lia; try assumption.
    + intros [|i] Hi; [exact E|apply H5; lia].
    + intros [|i] Hi; [lia|apply H6; lia].
  - right. exists 0, (S b). cbn [length nth]. repeat split; try lia; try assumption. intros [|i] Hi; [lia|apply H6; lia].
Qed.
Theorem C43_never_exact (h g : list Rring) d : 2 <= length h -> samp h 0 <> 0%R -> samp h (length h - 1) <> 0%R -> d < length h + length g - 1 ->
  exists i, i < length h + length g - 1 /\ conv h g i <> impulse (K := Rring) d i.
Proof.
  intros Hm H0 Hl Hd. set (m := length h) in *.
  destruct (first_last g) as [Z|(a & b & Hab & Hb & Na & Nb & Za & Zb)].
  - exists d. split; [exact Hd|]. unfold impulse. rewrite Nat.eqb_refl. replace (conv h g d) with (0%R : Rring); [cbn; lra|].
    symmetry. unfold conv. apply sum_zero. intros k Hk. unfold sampZ. destruct (_ <? _)%Z; [cbn; ring|]. change c0 with 0%R. rewrite Z. cbn. ring.
  - change (b < @length (car Rring) g) in Hb. assert (Ca : conv h g a = (samp h 0 * nth a g 0)%R).
    { unfold conv. rewrite (sum_single Rring m _ 0); [|lia|].
      - unfold sampZ. rewrite Z.sub_0_r. destruct (Z.ltb_spec (Z.of_nat a) 0); [lia|]. rewrite Nat2Z.id. reflexivity.
      - intros k Hk Hk0. unfold sampZ. destruct (Z.ltb_spec (Z.of_nat a - Z.of_nat k) 0); [cbn; ring|]. change c0 with 0%R. rewrite Za by lia. cbn. ring. }
    assert (Cb : conv h g (b + (m - 1)) = (samp h (m - 1) * nth b g 0)%R).
    { unfold conv. rewrite (sum_single Rring m _ (m - 1)); [|lia|].
      - unfold sampZ. destruct (Z.ltb_spec (Z.of_nat (b + (m - 1)) - Z.of_nat (m - 1)) 0); [lia|]. replace (Z.to_nat (Z.of_nat (b + (m - 1)) - Z.of_nat (m - 1))) with b by lia. reflexivity.
      - intros k Hk Hk0. unfold sampZ. destruct (Z.ltb_spec (Z.of_nat (b + (m - 1)) - Z.of_nat k) 0); [cbn; ring|]. change c0 with 0%R. rewrite Zb by lia. cbn. ring. }
    destruct (Nat.eq_dec a d) as [->|Nd].
    + exists (b + (m - 1)). split; [lia|]. unfold impulse. destruct (Nat.eqb_spec (b + (m - 1)) d); [lia|]. rewrite Cb. apply Rmult_integral_contrapositive_currified; assumption.
    + exists a. split; [lia|]. unfold impulse. destruct (Nat.eqb_spec a d); [contradiction|]. rewrite Ca. apply Rmult_integral_contrapositive_currified; assumption.
Qed.
Print Assumptions C43_never_exact.

(** Non-vacuity. *)
Example C43_ex : zfe_matrice (K := Zring) [1; 2; 3]%Z 3 = Ok [1; 2; 3; 0; 0; 0; 1; 2; 3; 0; 0; 0; 1; 2; 3]%Z /\
  zfe_matrice (K := Zring) [1; 2]%Z 4 = Ok [1; 2; 0; 0; 0; 0; 1; 2; 0; 0; 0; 0; 1; 2; 0; 0; 0; 0; 1; 2]%Z /\
  zfe (K := Zring) (fun _ _ b => b) [1; 2]%Z 2 = Ok [0; 0; 1]%Z /\ zfe (K := Zring) (fun _ _ b => b) [5]%Z 2 = UB.
Proof. repeat split. Qed.
(** the hypothesis on the solver is met, for the channel (1,1) and two taps, by one
    returning (-1/3, 2/3) *)
Example C43_ex_solver : let h := [1; 1]%R : list Rring in exists g, zfe (K := Rring) (fun _ _ _ => [-1/3; 2/3]%R) h 2 = Ok g /\
  forall F b, zfe_matrice h 2 = Ok F -> length b = 3 -> (forall i, i < 3 -> samp b i = impulse (K := Rring) ((length h + 2 + 1) / 2) i) -> normal_equations 3 2 F b g.
Proof.
  cbv zeta. eexists. split; [reflexivity|]. intros F b E L H. assert (EF : F = [1; 1; 0; 0; 1; 1]%R) by (injection E as <-; reflexivity). subst F.
  assert (Eb : b = [0; 0; 1]%R).
  { pose proof (H 0 ltac:(lia)) as A0. pose proof (H 1 ltac:(lia)) as A1. pose proof (H 2 ltac:(lia)) as A2.
    destruct b as [|x [|y [|z [|t b]]]]; try discriminate L. cbn in A0, A1, A2. now subst. }
  subst b. split; [reflexivity|]. intros [|[|j]] Hj; [| |lia]; unfold mat_vec, entry, samp; cbn; lra.
Qed.
