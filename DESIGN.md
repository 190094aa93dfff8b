# Formal model of tsdconseil/libtsd in Coq 8.16 - design

## 1. Method

`/repo` is read as text; every definition of the model cites the C++ file and lines it models.
The development lives in `rocq/theories`, grouped by area.  For an area `X`:

* `X_Model.v`   executable Gallina transcription of the C++ (no proofs),
* `X_Spec.v`    (when needed) the short, independent specification used in the statements,
* `X_Proofs.v`  lemmas,
* `X_Props.v`   the property theorems (each closed by `exact`), `Print Assumptions`, and `Example`s
                showing that the hypotheses are met by concrete non-trivial cases.

### Conventions of the model

* **Outcomes.** A C++ call ends normally, throws (libtsd's default logger throws on
  `échec`, `assertion*`, `msg_erreur`; out-of-range `operator()(i)` throws), or has undefined behaviour.
  Where a function can do anything but end normally, the model uses
  `Inductive res A := Ok a | Exc | UB` and theorems state the outcome `Ok`.
* **Integers.** `entier` (int) values are `Z` (or `nat` for lengths and loop counters that are provably
  non-negative); C++ `/` and `%` on possibly negative numbers are `Z.quot`/`Z.rem`.  Wrap-around is
  written explicitly (`mod 2^32`) where the property is about it (LFSR registers, 32-bit words, WAV sizes).
  Elsewhere, int overflow is not modelled (sizes are assumed below 2^31).
* **Samples.** `float`, `double`, `cfloat` samples are elements of an arbitrary commutative ring
  (record `cring` of `Base.v`) or field (`cfield`), or of the ordered field of reals when a comparison
  matters.  Theorems therefore hold in exact arithmetic for every such ring (reals, complex numbers, integers,
  finite fields): **floating-point rounding is not modelled** and no theorem bounds a rounding error.
  Exceptions: `Temps_*` models the double-precision steps of temps.cc (rounding to nearest even, Flocq), and
  `Wav_*` stores IEEE binary32/binary64 values bit by bit (Flocq `binary_float`).
* **Memory.** Vectors are lists, except in the array model (`Tab_*`), which has an explicit heap so that
  aliasing between views and parents is visible.
* **Block processing.** A stateful filter is `step : state -> list T -> res (state * list T)`; a property
  `for any partition` is stated over a list of blocks fed in turn.

## 2. Trusted base

* Coq's kernel (8.16.1), including `vm_compute`.
* What `Print Assumptions` prints for each theorem.  Most are `Closed under the global context`; those over
  the real numbers use the axioms of Coq's standard library Reals
  (`ClassicalDedekindReals.sig_forall_dec`, `ClassicalDedekindReals.sig_not_dec`,
  `FunctionalExtensionality.functional_extensionality_dep`).  Section 5 lists them per file.
* The faithfulness of the transcription: the C++ was not run.

## 3. Properties: what is modelled and how it is proved

| id | modelled code | proof idea |
|----|---------------|------------|
| C01-C04 | bitstream.cc as byte list + bit count + read position | refinement to `list bool`, invariant "buffer has ceil(n/8) bytes" |
| C05 | symmap/symdemap loops on the bit stream API | induction on symbols |
| C06 | diff_encode/diff_decode loops | induction; refutation by witness |
| C07 | LFSR step, code_mls with 32-bit registers | finite computation of each whole orbit (`vm_compute`), lifted; shift-and-add for autocorrelation |
| C08 | LFSR receiver | invariant "receiver register = last reglen bits", linearity of the recurrence |
| C09 | TamponNv2 | induction over blocks with carried remainder |
| C10-C12, C14, C15 | circular-buffer filters of filtre-rt.cc | invariant relating the circular buffer to the input history |
| C13, C46 | FiltreRII, SOIS | same, two histories |
| C16-C19 | polyphase.cc | same; index arithmetic |
| C20 | cic.cc | algebra of cumsum/diff as operators on sequences |
| C21, C22 | itrp.cc | Lagrange uniqueness / direct algebra; ordered-field reasoning |
| C23-C27 | fourier.cc | stage invariant of the radix-2 loop; sums over a ring with a root of unity |
| C28 | hadamard.cc | stage invariant |
| C29 | goertzel.cc | linear recurrence closed form |
| C30, C31 | frat.hpp | evaluation homomorphisms; refutations by witness |
| C32-C34 | temps.cc on Z | lia with div/mod equations, monotone day counts |
| C35 | wav.cc on byte lists | little-endian round trip, induction over writes |
| C36, C37 | tableau.cc/hpp heap model | separation of blocks, frame lemmas |
| C38, C39, C40, C49 | vector utilities | list induction |
| C41 | stats.cc | induction over the order with forward/backward vectors |
| C42 | modulations.cc over R (points as pairs) | argmin loop invariant, distinctness of each constellation, C05 for the bit side |
| C43 | egalisation.cc:181-237 | loop invariant on the set of written positions; Pythagoras for the least squares |
| C55 | egalisation.cc:29-171 over R | invariant (identity filter), Cauchy-Schwarz |
| C44 | geometrie.cc over R | ring/nsatz-style algebra, sqrt lemmas |
| C45, C56 | etalement-spectre.cc, transpo-bb.cc over any ring / C | stream transformers composed (`realizes`), oscillator invariant, loop invariant on slots |
| C47 | filtrage.cc: prod, pb2ph, notch, DC, lexp, mg, diff; type_rif; filtfilt | convolution algebra in any ring, rational functions of C31, sums over R (Leibniz series for the differentiator) |
| C48 | divers.cc: Chebyshev, Dirichlet, sinc | polynomial recurrences, trigonometric induction, Riemann integral (Coquelicot) |
| C50 | ra.cc; real phase, interpolator and half-band filter as parameters | phase invariant, counting lemma for ceil, cascade of stream transformers |
| C57, C58 | fenetres.cc over R (not Slepian; Bessel function as parameter) | closed forms of the points, sums of cosines over a period, Chebyshev coefficients by recurrence and discrete orthogonality |
| C59 | rif-fen.cc over R | windows of C57/C58, Fejer-Jackson inequality by induction on local minima, Abel summation |
| C60 | rif-cs.cc over R | Riemann integrals (Coquelicot) of the spectra, partial sums of cosines under the integral, closed form of the Gaussian taps |
| C61 | hilbert.cc | windows of C57, sums of odd sines and Abel summation for the sign of the response; DFT identities of C24-C25 |
| C62 | rif-freq.cc over the complex numbers; interp of C22 | inversion of the DFT, evenness of the forced spectrum |
| C63 | rii.cc design_biquad over R and C | Jury criterion for stability, field identities between z and the Laplace variable |
| C64 | rii.cc bilinear transform, LP-LP and LP-HP changes, on the rational functions of C30, C31 given by roots | products over the roots |
| C65, C66 | rii.cc Butterworth and Chebyshev prototypes, design_riia (elliptic prototype = parameter) | factor theorem for monic polynomial functions: X^n - Y^n and T_n^2 + sinh^2(na) are the products of their roots; conjugation; then C64 |
| C67, C68 | carrier-rec.cc: loop filters, detectors, CPLL, RPLL; oscillator = table of C53 (or any table of angle error eps) | error recurrence of the loop; cubic with three poles in the unit disc (intermediate value theorem, Jury), cascade of three first-order sections gives boundedness and convergence; Casoratian for instability; atan2 of polar forms |
| C69, C70 | freqestim.cc (all), psd in fourier.hpp, SuiviPicFrequence in carrier-rec.cc; a division by zero is reported (UB) | geometric sums of roots of unity; the largest bin is within half a bin by monotonicity of cos; algebraic identity of the Candan ratio, tan(pi d/N)/tan(pi/N); loop invariant for Welch |
| C71 | estimation-delais.cc (all), coherence in fourier.cc | Cauchy-Schwarz; the autocorrelation is strictly largest at lag 0 (a non-null sample whose shifted neighbour is null exists for every non-null shift); the first maximum makes the interpolation denominator positive |
| C72 | clock-rec.cc (ClockRec), interpolators of itrp.cc | the state after n samples is determined by the instant of the next reading (invariant: phase = T_k - n + 1, circular window = the last K samples); flat_st/run composition for the cutting; counterexamples computed on symbolic signals |
| C73 | snr.cc (Matzner) | the state is the pair of weighted moments; weighted Cauchy-Schwarz by induction; bounds of the square root |
| C74 | detection.cc (mode RIF) | outputs by the theorems of the FIR filter and of the moving average; selection by invariants of the segment loop; strict Cauchy-Schwarz for a shifted pattern (edge of its support); counterexamples on [1; 1] |
| C75 | fourier.cc:129-228 (half-size real transforms), 607-698 (délais) | spectrum times gain = circular convolution with the kernel (generic lemma over DFT systems); packing of the real transform undone by even/odd splitting; closed form of the kernel by telescoping; energy by Parseval |
| C76 | modulateur.cc (ModGen), modulations.cc:797-889 (shaping and matched filters), emetteur.cc | polyphase interpolator (C12) as convolution with the zero-stuffed symbols = sum over symbols; carrier by the oscillator invariant; matched filter by exchange of sums and autocorrelation; decision by C42; frames by induction with the state invariant `reach` |
| C77 | fourier/tod.cc (split, merge with its view, lifting stages, dwt, iwt, polyphase matrix, QMF, Haar and Daubechies schemes) | in-place stages = functions on (approximation, detail) pairs by loop invariants; merge characterised by the odd part of ranks; levels by induction; polyphase by values at a point |
| C78 | filtrage/filtre-analyse.cc (repfreq, frmag, frphase, frgroup, repech, repimp, kind and gains), Design and filtrer of filtrage.hpp | response of taps as explicit cosine and sine sums; FFT theorem (C24) for frmag; phase unwrapping theorem (C40) plus congruences modulo 2 pi for phase and group delay |
| C79 | telecom/telecom.cc (cmp_bits, cmp_bits_psk), on top of the alignment of fourier/estimation-delais.cc and the symbol mapping | correlation of 0/1 signals = number of coincidences; the rounded interpolated peak is still a maximum, ties included (C71_best); windows; induction over the rotations for the first minimum |
| C80 | telecom/analogique.cc (FM discriminator, AM modulator and demodulator, FM demodulator) | each stage as a fold over blocks; composition lemmas for an arbitrary resampler or audio filter; oscillator theorem (C53), Hilbert theorems (C61), convolution and delay theorems (C10, C11) |
| C81 | kalman/kalman.cc (Kalman filter, EKF, whole-sequence steps, simulator, dare, kalman_ssg, models) | matrices as finitely supported functions of two indices; positive definite matrices are invertible by elimination; gain equation and Joseph form; error recursion; invariant 'error uncorrelated with all affine functions of the past' for an abstract expectation; scalar computations |
| C82 | telecom/ecp.cc, telecom/simulation.cc, bruit_awgn (telecom.cc) | oscillator lemmas of C53; induction over the blocks; abstract expectation; stream of gains as a relation on an arbitrary source; antiderivative arcsin (Coquelicot) |
| C83 | fourier.cc:1346-1424 (rééchan_freq, czt) | bins of a sum of tones (orthogonality), placement of the two halves in the new spectrum, inverse transform; czt = circular convolution (C23) evaluated at the refuting inputs |
| C84 | fourier.cc:1150-1343 (Spectrum), 358-470 (transform plan) | state = tabulated functions; loop invariant of the accumulation; induction over the blocks with a pending group; Parseval for the power; orthogonality for a tone |
| C85 | fourier.cc:708-735 (ola_complexité) | fold keeps the smallest candidate; cost decreasing in the block size, lower bound 10 k beyond the examined candidates |
| C86 | rif-eq.cc (rifamp*, lsi, design_rif_eq), hb.cc (weights and layout) | pairing of the taps k and N-1-k; FFT = frequency response of the padded taps; the iterations keep positive weights and a weighted least squares solution (invariant), hence a lower bound on the largest weighted error; even/odd taps of the half-band filter; the solver is abstract, its existence proved by orthogonalisation |
| C87 | cic.cc (design_cic, cic_freq), limits.cc | value of the reversed polynomial and power of a rational function (C31); modulus of the geometric sum, abs(exp(iu) - 1) = 2 abs(sin(u/2)) |
| C88 | apps/doa.cc (steervec_1d, sensorcov_1d) | direct computation; shapes for the element by element product |
| C89 | vue/unites.cc (valeur_vers_chaine, calc_expo_nb_chiffres, calc_expo_nb_chiffres_commun, ndigits) | the nearest decimal is at least as near as any other, ndigits is the first number of decimals within 2^-22; thresholds by case analysis; folds over the ticks |
| C52, C53 | tsd.cc test signals and oscillators over R | angle addition, induction over blocks |
| C54 | tsd.hpp trapezoid integral | sums in a field |

Properties which the code violates are not weakened silently: the violated statement is kept, a theorem with
suffix `_refuted` gives the witness, and what does hold is proved beside it.

## 4. What is not modelled

Floating-point rounding, int overflow of sizes, memory exhaustion, log output, graphics (`src/vue`, plots),
random generators, thread scheduling, performance.  Numerical filter design (Remez, elliptic prototype, Slepian windows...),
IMU and Kitagawa state models, numerical Jacobians are not modelled.

## 5. Axioms

`Print Assumptions` follows every theorem in the `*_Props.v` files and is printed by the build.  `AXIOMS.md`
(generated by `tools/axioms.py`) lists the result theorem by theorem.  Only axioms of the standard library appear,
and only those which come with its real numbers or with classical logic:
`ClassicalDedekindReals.sig_forall_dec`, `ClassicalDedekindReals.sig_not_dec`,
`FunctionalExtensionality.functional_extensionality_dep` and (through Flocq, Coquelicot and parts of Reals)
`Classical_Prop.classic`.  The theorems about code which needs no real numbers (237 of the first 343) use none.
