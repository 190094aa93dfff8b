S="core/src/"; I="core/include/tsd/"
P("C01","A bit stream behaves like a list of bits",
 "Starting from an empty BitStream, after any sequence of push, set on an existing position, +=, + and pad calls, lon() is the number of bits appended so far and bs[i] is the i-th bit of the plain list of bits obtained by performing the same operations on a list; nothing else changes.",
 "every finite sequence of operations, every bit value, every index below lon()",
 "The buffer is packed eight bits per byte with explicit masks; the property must hold across every alignment of every operation in every order.",
 [S+"telecom/bitstream.cc: BitStream::push,set,operator[],operator+=,operator+,pad", I+"telecom/bitstream.hpp"])
P("C02","32-bit words and sequential reads round-trip",
 "Reading a stream with pop() returns exactly its bits in order, eof() becomes true exactly when all lon() bits have been read, and pop_u32 after push_u32(v) at the same position returns v, for words pushed after any prefix.",
 "all 32-bit words, all prefixes, all numbers of words",
 "2^32 words times all alignments cannot be enumerated.",
 [S+"telecom/bitstream.cc: push_u32,pop_u32,pop,eof,restart"])
P("C03","Bit stream comparison and Hamming distance",
 "dst_Hamming of two streams of equal length is the number of positions where their bits differ; operator== agrees with equality of the bit lists for streams of equal length built by appending; documented use as content equality fails in general: streams of different lengths can compare equal, and after resize() to a smaller size equal contents can compare different.",
 "all pairs of streams",
 "Depends on padding bits of the last byte, that only particular histories set.",
 [S+"telecom/bitstream.cc: operator==,dst_Hamming,resize"])
P("C04","Padding to a multiple",
 "pad(n) appends n zero bits; pad_mult(m) (m>0) brings the length to the smallest multiple of m that is at least the old length, keeps the old bits, and appends only zeros; altern(n) does not return n bits (it returns n+2 or so) although documented to.",
 "all streams, all m>0",
 "Universal over lengths and contents.",
 [S+"telecom/bitstream.cc: pad,pad_mult,altern"])
P("C05","Symbol mapping is invertible",
 "symmap_binaire(bs,k) yields ceil(n/k) symbols, each in [0,2^k), symbol i being sum of 2^j * bit(ki+j) with missing bits read as 0; symdemap_binaire of these symbols appends exactly the bits of bs followed by the zeros needed to reach a multiple of k; conversely mapping the demapped symbols gives back the symbols; k<=0 is rejected by an exception.",
 "all bit streams, all 1<=k<=30, all symbol vectors in range",
 "Round trip over all streams, lengths and k.",
 [S+"telecom/modulations.cc: symmap_binaire,symdemap_binaire", I+"telecom.hpp"])
P("C06","Differential encoding and decoding",
 "diff_encode produces y_n = x_n xor y_(n-1) with y_(-1)=0, n bits; the documented decoder law (output bit n is x_n xor x_(n-1), n-1 output bits, so that decode(encode x) is x without its first bit) is false of diff_decode: it outputs a constant 0 first and never uses the last input bit.",
 "all bit streams",
 "Universal over streams.",
 [S+"telecom/telecom.cc: diff_encode,diff_decode", I+"telecom.hpp: documentation of diff_decode"])
P("C07","Maximal-length sequences",
 "For every register length 2..16 code_mls(n) has 2^n-1 bits, its register runs through every non-zero state exactly once before returning to its initial state, and it contains exactly 2^(n-1) ones (or as measured) hence is balanced; its periodic autocorrelation at every non-zero shift is -1.",
 "all register lengths in the table, all shifts",
 "The whole period has to be explored for every length; the autocorrelation for every shift.",
 [S+"telecom/prbs.cc: polynome_primitif_binaire, LFSRGenerateur, code_mls", I+"telecom/lfsr.hpp"])
P("C08","PRBS receiver synchronisation and error count",
 "When fed any generator output (any register length 1..16, any start state) the LFSR receiver is locked after a bounded number of bits and then counts zero errors for ever; once locked, a single flipped bit among correct ones is counted as exactly one error and does not unlock it.",
 "all register lengths, all generator states, all bit counts, all positions of the flipped bit",
 "Unbounded streams and all start states.",
 [S+"telecom/prbs.cc: LFSRRecepteur::step,lis_etat,reset"])
P("C09","Fixed-size buffering",
 "tampon: whatever the sizes of the blocks given to step, the callback receives, in order, consecutive blocks of exactly N samples whose concatenation is the concatenation of the inputs truncated to a multiple of N; the remainder (fewer than N samples) stays buffered.",
 "all block sizes sequences, all N>=1, all sample values",
 "All partitions of all inputs.",
 [S+"tsd.cc: TamponNv2"])
P("C10","FIR filter is a convolution, independent of blocking",
 "filtre_rif(h): the concatenated output for any sequence of input blocks is y_n = sum_k h_k x_(n-k) with x=0 before the start; no index error occurs; output length equals input length.",
 "all coefficient vectors of at least one tap, all inputs, all block partitions, any commutative ring of samples",
 "All filter lengths, block partitions, and circular index wraparounds.",
 [S+"filtrage/filtre-rt.cc: FiltreRIF"])
P("C11","Delay line",
 "ligne_a_retard(n): output sample i is input sample i-n (zero for i<n) over any sequence of blocks.",
 "all delays n>=0 (n=0 included where the code allows), all block partitions",
 "Unbounded streams, wraparound.",
 [S+"filtrage/filtre-rt.cc: LigneARetard"])
P("C12","Decimator",
 "decimateur(R): concatenated output is the samples of index 0,R,2R,... of the concatenated input, for any block partition.",
 "all R>=1, all partitions",
 "The phase is carried across blocks of any size.",
 [S+"filtrage/filtre-rt.cc: Decimateur"])
P("C13","Rational (IIR) filter realises its difference equation",
 "filtre_rii(numer/denom) outputs the unique sequence with sum_k a_k y_(n-k) = sum_k b_k x_(n-k) (zero initial conditions), for any block partition, for denominators of degree at least one; for a constant denominator the code performs a modulus by zero (undefined behaviour) on the first sample.",
 "all rational filters with a_0 invertible, all inputs and partitions",
 "Circular indexing of two histories, unbounded streams.",
 [S+"filtrage/filtre-rt.cc: FiltreRII"])
P("C14","Moving average",
 "filtre_mg(K): output n is (x_n+...+x_(n-K+1))/K with x=0 before the start: in exact arithmetic the running accumulator never drifts, for any number of samples and any partition.",
 "all K>=1, all inputs, all partitions",
 "Unbounded number of incremental updates.",
 [S+"filtrage/filtre-rt.cc: MoyenneGlissante"])
P("C15","First-order recursive filters",
 "filtre_lexp(g): y_n = y_(n-1) + g (x_n - y_(n-1)), started from the first sample; a constant input gives that constant for ever; filtre_dc: y_n = a (x_n - x_(n-1) + y_(n-1)), a constant input decays geometrically; both independent of the block partition.",
 "all coefficients, inputs, partitions",
 "Unbounded streams.",
 [S+"filtrage/filtre-rt.cc: FiltreLExp, FiltreDC"])
P("C16","FIR filter and decimate",
 "filtre_rif_decim(h,R) outputs, for any partition, one sample per R inputs, namely sum_k h_k x_((m+1)R-K+k): the correlation with h, i.e. filtering by the time-reversed response then decimating; it equals filtering by h then decimating exactly for palindromic h, and differs for a witness asymmetric h.",
 "all h, R>=1, inputs, partitions",
 "All tap counts, ratios and partitions.",
 [S+"reechan/polyphase.cc: FiltreRIFDecim"])
P("C17","Upsample and FIR filter",
 "filtre_rif_ups(h,R) outputs exactly R samples per input sample and for any partition equals zero-insertion by R followed by FIR filtering with the (padded, R-scaled) coefficients in the order the code applies them.",
 "all h, R>=1, inputs, partitions",
 "All tap counts, ratios and partitions.",
 [S+"reechan/polyphase.cc: FiltreRIFUps"])
P("C18","Half-band decimator",
 "filtre_rif_demi_bande(h) outputs every second sample of the full FIR filtering by h, whenever h has the half-band shape (odd length, centre tap 1/2, other odd-offset taps zero), for any partition.",
 "all half-band filters, inputs, partitions",
 "The code skips half the taps; equality must hold for every filter and wraparound.",
 [S+"reechan/polyphase.cc: FiltreRIFDemiBande"])
P("C19","Polyphase form is lossless",
 "iforme_polyphase(forme_polyphase(x,M)) is x followed by the zeros needed to reach a multiple of M, and branch m, sample k of the polyphase form is x_(kM+m).",
 "all vectors, all M>=1",
 "All sizes.",
 [S+"reechan/polyphase.cc: forme_polyphase,iforme_polyphase"])
P("C20","CIC decimator",
 "On a single block from a fresh state the CIC decimator output is the N-fold moving sum of width R (boxcar to the power N) sampled every R; this fails for a signal split over two blocks because the integrators restart from zero at each block.",
 "all N, R, all inputs",
 "All orders, ratios and lengths.",
 [S+"reechan/cic.cc"])
P("C21","Interpolators reproduce polynomials",
 "The degree-d Lagrange interpolator returns p(t0+tau) for every polynomial p of degree at most d sampled on its window and every fraction tau; the linear interpolator is the degree-1 case; the cubic spline coefficients sum to one.",
 "all d, all polynomials of degree at most d, all tau, any field",
 "All degrees, polynomials and real fractions.",
 [S+"reechan/itrp.cc"])
P("C22","Piecewise-linear interpolation of a table",
 "interp(x,y,x2) for strictly increasing x and increasing queries inside [x0,xn-1] returns the value of the piecewise linear function through the points; queries in decreasing order are not supported (witness).",
 "all tables and query vectors over an ordered field",
 "All tables and queries.",
 [S+"reechan/itrp.cc: interp_lin"])
P("C23","Radix-2 FFT computes the DFT",
 "For every n=2^k the iterative radix-2 transform returns X_k = sum_j x_j w^(jk) for the root w used by its twiddles, in natural order, for every input.",
 "all powers of two, all inputs, any commutative ring with a root of unity of order n whose half power is -1",
 "All sizes and inputs; log2(n) in-place stages.",
 [S+"fourier/fourier.cc: tfr_radix2"])
P("C24","FFT of every length",
 "The default FFT plan (power of two, even split, odd chirp-z) computes the DFT for every length n>=1.",
 "all n>=1, all inputs",
 "All sizes.",
 [S+"fourier/fourier.cc: TFRPlanDefaut, tfr_czt_impl"])
P("C25","Inverse transform",
 "ifft(fft(x)) = x: the inverse obtained from the forward transform by index reversal and scaling is the two-sided inverse.",
 "all n, all inputs, any commutative ring where n is invertible and w is a principal root",
 "All sizes and inputs.",
 [S+"fourier/fourier.cc: tfr2itfr, ifft"])
P("C26","Circular correlation via FFT",
 "The frequency-domain correlation returns the circular correlation sums of its two inputs.",
 "all n, all inputs",
 "All sizes and inputs.",
 [S+"fourier/fourier.cc: ccorr, correlation_freq"])
P("C27","FFT-based FIR filtering",
 "The overlap-add FFT filter outputs the linear convolution with h delayed by the documented number of samples, for any partition into blocks, when h is not longer than the processing block.",
 "all h with length at most Ne, all inputs, all partitions",
 "Carry between blocks, buffering, all sizes.",
 [S+"fourier/fourier.cc: OLA, filtre_rif_fft"])
P("C28","Fast Walsh-Hadamard transform",
 "fwht of a vector of 2^k samples is H x / 2^k with H the Hadamard matrix, H_(i,j) = (-1)^popcount(i and j); applying it twice gives x/2^k; the recursive hadamard_matrice equals that matrix.",
 "all k, all inputs",
 "All sizes.",
 [S+"fourier/hadamard.cc"])
P("C29","Goertzel recursion",
 "The Goertzel recursion computes the DFT bin it is configured for.",
 "all lengths, inputs, frequencies",
 "All sizes and frequencies.",
 [S+"fourier/goertzel.cc"])
P("C30","Polynomial arithmetic",
 "Evaluating the sum, difference, product, power of two coefficient-mode polynomials equals the same operation on their values; conversion from roots to coefficients preserves values; the product of a roots-mode and a coefficient-mode polynomial is wrong by the constant 1 (witness).",
 "all polynomials and evaluation points over a commutative ring",
 "All degrees and coefficients.",
 [I+"filtrage/frat.hpp: Poly"])
P("C31","Rational function arithmetic",
 "Evaluating sums, products, quotients, inverses and powers of rational functions equals the operation on values (where denominators do not vanish); rif and rii give the transfer functions of their difference equations (rii: when the two coefficient counts differ by at most one); eval_inv_z(z -> 1/z) is wrong when numerator and denominator degrees differ by two or more (witness).",
 "all rational functions and points over a field",
 "All degrees and coefficients.",
 [I+"filtrage/frat.hpp: FRat"])
P("C32","Calendar conversion round-trips",
 "For every valid date-time (years 1..9999) converting to an internal instant and decomposing gives back the same fields, and for every day number of the supported range converting to a calendar date gives a valid date with that day number; later dates have larger day numbers.",
 "all dates of years 1..9999, all instants in range",
 "3.6 million days times all times of day; leap rules at 4/100/400.",
 [S+"temps.cc: calendrier, grégorien_vers_jours, decomposition", I+"temps.hpp"])
P("C33","Calendar arithmetic",
 "Leap years are those of the Gregorian rule, month lengths follow, day numbers of consecutive days differ by one, the Julian day number is that day number plus a constant.",
 "all years, months and days in range",
 "Universal over the calendar.",
 [S+"temps.cc: est_bissextile, mois_nb_jours"])
P("C34","GPS time conversion",
 "Converting to GPS week/second and back gives the instant rounded down to the second, the seconds of week lie in [0,604800), and converting from GPS week/second and back is the identity; conversion to GPS time is undefined behaviour (int overflow) for every instant from week 3551 (January 2048) on.",
 "all microsecond instants after the GPS epoch; all weeks below 3551 and all seconds of week",
 "Universal over instants.",
 [S+"temps.cc: de_GPS, vers_GPS"])
P("C35","WAV files round-trip",
 "Samples written to a WAV file by the writer and closed are read back by the reader with the same sample rate, channel count, number of frames and 16-bit quantised values, mono and stereo, for files below 2^29 bytes; extra chunks are skipped. From 2^29 bytes on, or when a write is not a whole number of frames, the frame count is wrong; the RIFF size and block-align header fields are wrong; a chunk of size 0xFFFFFFF8 makes the reader loop for ever.",
 "all sample vectors, rates and block partitions of the writes and reads",
 "All lengths and contents, header fields in little-endian.",
 [S+"wav.cc"])
P("C36","Arrays have value semantics, segments are views",
 "Copying an array and modifying the copy never changes the original; writing through a segment/head/tail/column view changes exactly the designated elements of the parent.",
 "all array shapes, element indices and values, all operation sequences",
 "Aliasing depends on histories of copies and views.",
 [S+"tableau.cc", I+"tableau.hpp"])
P("C37","Array access is bounds-checked",
 "Reading element i of a vector returns the element for 0<=i<n and raises an exception otherwise; segment(i0,n) is checked only against the upper end: negative offsets (tail(n) with n larger than the vector) pass the check and reach memory outside the array.",
 "all indices, sizes, views",
 "Universal over indices.",
 [S+"tableau.cc: segment, operator()", I+"tableau.hpp"])
P("C38","Concatenation, rotation, up/down-sampling of vectors",
 "vconcat(a,b) is the list concatenation; rotation_vec(x,d) element i is x((i+d) mod n) for -n<=d, and raises an exception for d<-n; surech/sousech by R are inverse; cumsum and diff are inverse up to the first sample; pad_zeros, intervalle_entier and linspace have the stated lengths and values; concatenating matrices by rows or columns is documented to stack the operands but does not produce that matrix.",
 "all vectors, all d, R",
 "Universal over sizes.",
 [I+"tsd.hpp: vconcat, rotation_vec, sousech, surech, cumsum, diff"])
P("C39","Searching vectors",
 "trouve returns the increasing list of all true indices, trouve_premier the first or -1; trouve_dernier is documented to return the last true index but returns something else (witness).",
 "all boolean vectors",
 "Universal over vectors.",
 [S+"tsd.cc: trouve,trouve_premier,trouve_dernier"])
P("C40","Modulo and phase unwrapping",
 "modulo(x,m) lies in [0,m) and differs from x by an integer multiple of m; déplie_phase changes every sample by a multiple of its range and makes consecutive differences at most half a turn, inverting wrapping of any slowly varying phase.",
 "all reals (exact arithmetic), all sequences",
 "All sequences and magnitudes.",
 [S+"tsd.cc: déplie_phase", I+"tsd.hpp: modulo"])
P("C41","Levinson recursion solves Toeplitz systems",
 "levinson(l,c,y) returns the solution x of T x = y where T is the Toeplitz matrix with first row l and first column c, whenever no division by zero occurs; levinson_reel solves the Yule-Walker equations.",
 "all sizes, all matrices for which the recursion is defined, any field",
 "All sizes and coefficients.",
 [S+"stats.cc: levinson, levinson_reel"])
P("C42","Hard demodulation recovers the bits",
 "For every library waveform (M-ASK, M-PSK, M-QAM, M-FSK symbols, pi/4-QPSK) the nearest-symbol search returns a constellation point at minimal distance; decode_symboles(génère_symboles(bs)) appends the bits of bs padded to a whole symbol, and still does when every received point is perturbed by less than half the distance between the sent symbol and any other; the per-symbol demodulation contexts return a nearest symbol of the constellation in force. Decoding in two calls equals decoding in one, except for pi/4-QPSK (witness).",
 "all constellation sizes, bit streams, received points and noise patterns below half the minimal distance",
 "A continuum of received points, all stream lengths and all constellation sizes.",
 [S+"telecom/modulations.cc: FormeOnde::symbole_plus_proche, génère_symboles, decode_symboles, decode_QPSK, FormeOnde_π4QPSK::Ctxπ4QPSK"])
P("C43","Zero-forcing equaliser",
 "égaliseur_zfe_matrice(h,n) has n+m-1 rows and n columns and multiplied by any g it gives the linear convolution of h and g, for every n >= m = length of h (it writes out of range for n < m); égaliseur_zfe then returns taps minimising the residual interference for the delay round((m+n)/2), provided the linear solver solves the normal equations; that delay is out of range exactly for n+m < 4. With two or more taps no finite equaliser is exact.",
 "all h, n, g, all competing equalisers",
 "Three separate index loops must tile the band exactly for all sizes; optimality is over a continuum.",
 [S+"telecom/egalisation.cc: égaliseur_zfe_matrice, égaliseur_zfe"])
P("C44","Quaternions, rotation matrices and Cardan angles",
 "Constructors give unit quaternions; rot_mat() is a rotation matrix, rotate() applies it and is the rotation of the documented axis and angle, an orientation-preserving isometry undone by inv(); for every rotation matrix the constructor gives a unit quaternion with that matrix (equal to the original one up to the sign); elementary rotations compose by adding angles; Cardan angles and rotation matrices convert back and forth off the gimbal lock. The Cardan constructor from a quaternion has the opposite convention, and mat() is never a homogeneous rotation matrix (witnesses).",
 "all unit quaternions, rotation matrices, vectors and angles over the reals",
 "Four branches over a continuum.",
 [S+"geometrie.cc: Quaternion, Cardan", I+"geometrie.hpp: rotmat_3d"])
P("C45","Spread-spectrum transmitters",
 "The DSSS modulator adapts the rate by exactly chips/osf and multiplies output sample i of the stream by chip (i mod code length), for any partition into whole symbols; with a +-1 code and one chip per sample, applying it twice restores the input; bad configurations and blocks are rejected. On its first call the FHSS modulator shifts slot s by s*D/nfreqs; it indexes its oscillators by sample number, so it reads out of bounds when a block has more than nfreqs/D slots (rounded up), never reads the values of the hop sequence, and never returns with the default slot duration (witnesses).",
 "all codes, inputs, partitions, rate-adaptation filters and interpolators",
 "Unbounded streams.",
 [S+"telecom/canalisation/etalement-spectre.cc: DSSSModulation, FHSSModulation", I+"telecom.hpp: dsss_modulation, fhss_modulation"])
P("C46","Second-order section chains",
 "A second-order section filter realises its difference equation (after the documented first-sample initialisation) in both direct forms, and a chain is the composition of its sections, for any partition.",
 "all coefficients, inputs, partitions",
 "Unbounded streams.",
 [S+"filtrage/filtre-rt.cc: SOIS, ChaineSOIS"])
P("C47","Filter design algebra",
 "The product design of two FIR filters is the convolution of their responses, and filtering by it is filtering by one then the other; filtfilt is a zero-phase (self-adjoint) operator; spectral inversion gives delta minus h; spectral reversal alternates signs: filtering by it equals modulating, filtering by h and modulating back; the kind of a FIR filter is that of its symmetry, which gives a linear phase; the notch filter nulls exactly its frequency and is stable, the DC blocker nulls constants, the exponential filter has unit DC gain and its parameter conversions are inverse of each other; the differentiator maps an affine signal to its slope within 4/(pi(n+1)).",
 "all filters and inputs",
 "All lengths.",
 [S+"filtrage/filtrage.cc: design_rif_prod, design_rif_pb2ph_is, design_rif_pb2ph_rs, design_rif_diff, design_notch, design_bloqueur_dc, design_lexp, lexp_coef, design_mg",S+"filtrage/filtre-analyse.cc: type_rif"])
P("C48","Chebyshev polynomials and kernels",
 "Chebychev_T(n) satisfies the recurrence T_n = 2x T_(n-1) - T_(n-2) and T_n(cos t)=cos(n t), has degree n, is bounded by 1 on [-1,1], and T_m o T_n = T_mn; Chebychev_U(n) is documented to be the second kind but returns T_n (witness); the Dirichlet kernel is the sum of its harmonics and sinc is the Fourier transform of a gate.",
 "all n",
 "All degrees.",
 [S+"divers.cc"])
P("C49","Integer delay alignment",
 "délais_entier shifts a vector by tau samples with zero fill, exactly, for every -n<=tau<=n; shifting forth and back restores the untouched part.",
 "all vectors and delays",
 "Universal over delays.",
 [S+"fourier/fourier.cc: delais_entier"])
P("C50","Arbitrary rate adaptation",
 "The interpolating resampler emits, after N inputs in any partition, exactly ceil(ratio*N) outputs; output k is the interpolation of the stream at instant k/ratio (minus the delay of the interpolator), its buffer is never overrun; linear and Lagrange interpolation are exact on their polynomials. The cascade used by filtre_reechan splits every ratio in (0,1e9) into halvings or doublings and a factor in [1/2,2), does not depend on the partition, and its output count is within 2 samples and a relative error of 1e-6 of ratio*N; other ratios are rejected. A ratio close to 1 is silently treated as 1 (unbounded drift, witness).",
 "all positive ratios, inputs, partitions, filters, interpolators (exact arithmetic)",
 "Accumulated phase over unbounded streams.",
 [S+"reechan/ra.cc", I+"filtrage.hpp: filtre_reechan, filtre_itrp"])
P("C52","Test signals have their documented shape and period",
 "sigscie, sigtri, sigcar, sigimp and signyquist return n samples of the sawtooth, triangle, square, impulse and alternating sequences with values in [-1,1] and the requested period; an odd period breaks the triangle bound and the square period, and a too small period divides by zero.",
 "all periods and lengths",
 "Universal over periods and lengths; parity matters.",
 [S+"tsd.cc: sigscie, sigtri, sigcar, sigimp, signyquist"])
P("C53","Oscillators produce exact phase-continuous tones",
 "source_ohc/source_ohr called with any sequence of block sizes output the samples e^(2 i pi f k) without gap or repetition, and retuning between blocks keeps the phase continuous; sigexp/sigsin/sigcos follow their formulas at every length; the table oscillator never fails, is exact on its grid, 2 pi periodic, and its amplitude stays in [cos(pi/N),1].",
 "all frequencies, block sequences, retunings, angles (exact arithmetic)",
 "Unbounded streams and a continuum of angles.",
 [S+"tsd.cc: OHC, OHR, OLUT, sigexp, sigsin, sigcos"])
P("C54","Trapezoidal integration",
 "integrale_trap is linear in the integrand, equals the sum of the trapezoids on n equispaced points, and is exact on every affine function; n=0 throws and n=1 returns 0.",
 "all integrands, intervals, n, any field",
 "Universal over integrands and n.",
 [S+"ct.cc: intégrale_trap"])

P("C55","Adaptive equaliser",
 "égaliseur_rif gives one output for every K inputs, independently of block boundaries; an undistorted signal (symbols for the decision criterion, unit modulus for CMA) goes through unchanged and leaves the coefficients unchanged for every step size; a null step size makes it a decimator; a decision-directed update never increases the error on the current window when the step size is at most 2 over the window energy. With CMA, the DFE structure is exactly the FFE one (its backward filter never leaves zero).",
 "all configurations, inputs, histories and partitions",
 "Unbounded streams with feedback; the descent is over a continuum of states.",
 [S+"telecom/egalisation.cc: EgaliseurRIF"])

P("C56","Baseband transposition",
 "transpo_bb multiplies sample n of the stream by e^(-2 i pi fi n), phase-continuous in any partition, and for a real input then applies the image filter as a convolution; a real carrier at fi becomes half the DC gain of the filter plus its image at -2fi.",
 "all frequencies, inputs, partitions, image filters (exact arithmetic)",
 "Unbounded streams.",
 [S+"telecom/canalisation/transpo-bb.cc: TranspoBB", I+"telecom.hpp: transpo_bb"])

P("C57","Elementary windows",
 "fenêtre(type, n) returns n values in [0,1]; the symmetric version is symmetric for every n; the centre of odd symmetric and even periodic windows is exactly 1; even symmetric Hann, triangle and Blackman windows end with 0; M copies shifted by n/M add up to a constant (Hann and Hamming M>=2, Blackman M>=3, triangle M even), so the coefficients of Hann sum to n/2; the name of each window is read back and unknown names are refused. The periodic version of odd length has not the period n (witness).",
 "all window types, lengths, overlaps (exact arithmetic)",
 "Universal over lengths and overlaps; parity matters.",
 [S+"fenetres.cc: fen_inter, Hamming_generalise, fenêtre, parse_fenêtre", I+"filtrage.hpp: fenêtre"])
P("C58","Chebyshev and Kaiser windows",
 "The Chebyshev window is symmetric with values in [0,1] and maximum 1; its frequency response peaks at 0, is at least A dB below the peak everywhere outside its main lobe, and reaches that level with alternating signs (equal ripple), for every length and attenuation. The Kaiser window is symmetric, in (0,1], non-decreasing up to its centre where it is 1; kaiser_param returns an odd length at least the documented formula and less than 2 above it.",
 "all lengths, attenuations A>=0, frequencies, shape parameters (exact arithmetic)",
 "Over a continuum of frequencies and all lengths.",
 [S+"fenetres.cc: fenêtre_chebychev, cheb_eval, fenêtre_kaiser1, kaiser_param", I+"filtrage.hpp: fenêtre_chebychev, fenêtre_kaiser"])

P("C59","Windowed FIR design",
 "design_rif_fen of odd order returns the ideal filter times the window: low-pass taps are those of the gate [-fc, fc], and the lp version has DC gain exactly 1 (the sum it divides by is positive) for every window but Chebyshev; every kind has a symmetric response; low-pass and high-pass, band-pass and band-stop responses add up to 1 at every frequency; the band-pass is the difference of two low-pass filters; cut-off 1/4 gives a half-band filter; cut-off 1/2 a pure delay. Kaiser and Chebyshev designs likewise. Unknown kinds and windows throw. Even orders: band-pass throws, band-stop is undefined behaviour, low-pass is not symmetric (witnesses).",
 "all odd orders, windows, cut-off frequencies, response frequencies (exact arithmetic)",
 "Over a continuum of frequencies and all orders; the positivity of the DC gain is a Fejer-Jackson inequality.",
 [S+"filtrage/rif-fen.cc: design_rif_fen, coefs_filtre_sinc, design_rif_fen_kaiser, design_rif_fen_chebychev", I+"filtrage.hpp: design_rif_fen"])
P("C60","Pulse shaping filters",
 "The raised cosine pulse and its square root are the inverse Fourier transforms of the raised cosine spectrum and of its square root; sampled at osf samples per symbol, design_rif_cs vanishes at the other symbol instants, so that a symbol is recovered free of inter-symbol interference; DC gain is exactly 1 (raised cosine, and square root with that normalisation) or energy exactly 1, symmetric for odd n. The Gaussian filter is positive, symmetric, increasing up to its middle, of sum 1; BT is its -3 dB bandwidth; the telecom version is the bell averaged over one symbol except its first osf-1 taps, which makes it never symmetric when osf >= 2.",
 "all orders, roll-offs in [0,1], oversampling ratios, symbol sequences (exact arithmetic)",
 "Continuum of times and roll-offs, integrals, arbitrary symbol sequences.",
 [S+"filtrage/rif-cs.cc: cs, rcs, design_rif_cs, design_rif_rcs, design_rif_rcs1, design_rif_gaussien, design_rif_gaussien_telecom", I+"filtrage.hpp: design_rif_cs, design_rif_rcs"])

P("C61","Hilbert transform",
 "design_rif_hilbert of odd order returns the ideal taps 2/(pi k) (k odd) times the window: antisymmetric, DC gain 0; even orders throw. The transformer outputs, for any partition of the input, the input delayed by half the order as real part and the filtered input as imaginary part; a tone of frequency w comes out as (cos theta, A(w) sin theta) with A(w) >= 0 on [0, pi] (positive inside when the window is), symmetric around pi/2, null at 0 and pi. hilbert_tfd returns a signal whose negative-frequency bins are null and whose real part is the input plus its mean minus, for even lengths, its Nyquist component; hence the real part of a signal with a DC component is not the signal (witness for every length).",
 "all odd orders, windows, tones, inputs, partitions, DFT lengths (exact arithmetic)",
 "Over a continuum of frequencies, all orders, all partitions.",
 [S+"filtrage/hilbert.cc: design_rif_hilbert, HilbertTransformeur, hilbert_tfd", I+"filtrage.hpp: hilbert"])
P("C62","Frequency sampling FIR design",
 "design_rif_freq returns 2M-1 real symmetric coefficients whose zero-phase response at the frequencies l/(2M-1) of design_rif_freq_freqs is exactly the template. With another number of coefficients (even numbers are rounded up) the template is interpolated linearly on the grid k/(2M), which is not the documented grid (witness). A single coefficient is refused.",
 "all templates, numbers of points and coefficients (exact arithmetic)",
 "All templates and sizes.",
 [S+"filtrage/rif-freq.cc: design_rif_freq, design_rif_freq_freqs", I+"filtrage.hpp: design_rif_freq"])

P("C63","Biquad designs",
 "design_biquad returns a stable filter for every type, frequency in (0,1/2) and Q > 0; its transfer function is the bilinear transform of the documented analog prototype with the design frequency sent exactly to 1 rad/s; the gains at 0, at the design frequency and at half the sampling rate are exactly the documented ones (1, Q, gain_dB...). An unknown type name silently designs a low-pass (witness).",
 "all types, frequencies, quality factors, gains, response frequencies (exact arithmetic)",
 "Over continua of parameters and frequencies.",
 [S+"filtrage/rii.cc: design_biquad", I+"filtrage.hpp: design_biquad"])
P("C64","Bilinear transform and frequency changes",
 "The conversions between digital and analog frequencies are inverse of each other; the bilinear transform of H is H(2 fe (z-1)/(z+1)) for every transfer function given by its poles and zeros, and maps stable prototypes to filters with all poles inside the unit circle; the low-pass change gives H(s/wc), the high-pass change H(wc/s) up to the sign (-1)^(zeros+poles) (witness: the first order high-pass is inverted), both keep stability; transfer functions given by coefficients are refused (finding).",
 "all rational functions given by roots, all frequencies (exact arithmetic)",
 "All degrees, roots and frequencies.",
 [S+"filtrage/rii.cc: trf_bilineaire, pban_vers_pba, pban_vers_pha, wd_vers_wa, wa_vers_wd, fd_vers_fa, fa_vers_fd"])
P("C65","Butterworth IIR design",
 "For every order, the Butterworth prototype has n poles in the left half-plane and gain 1/sqrt(1+w^2n), real coefficients and gain exactly 1 at 0; design_riia gives a stable low-pass whose squared gain is 1/(1+(tan(pi v)/tan(pi fc))^2n) at every frequency v: 1 at 0, 1/2 at fc, 0 at 1/2, strictly decreasing; likewise the high-pass, whose sign is (-1)^n at 1/2 (inverted for odd orders, finding). Band filters always throw and the name pb means low-pass (finding); unknown names are refused.",
 "all orders, cut-off and response frequencies (exact arithmetic)",
 "All orders and a continuum of frequencies.",
 [S+"filtrage/rii.cc: butterworth_analogique, design_riia_laplace, design_riia, parse_tf, parse_proto", I+"filtrage.hpp: design_riia"])
P("C66","Chebyshev IIR design",
 "For every order and ripple d, the type I design is stable, with squared gain (1+e2 T_n(0)^2)/(1+e2 T_n(x)^2), x = tan(pi v)/tan(pi fc), e2 = 10^(d/10)-1: ripple of exactly d dB in the pass-band, then decreasing, exact gain 1 at 0 and 0 at 1/2. For even orders the ripple lies above 0 dB and the gain at fc is 1 (finding). Even-order type II designs are stable, decrease in the pass-band, and are attenuated by at least d dB everywhere beyond fc, where the attenuation is exactly d dB. Same for high-pass designs.",
 "all orders (type II: even), ripples, attenuations, cut-off and response frequencies (exact arithmetic)",
 "All orders and a continuum of frequencies.",
 [S+"filtrage/rii.cc: tchebychev_I_analogique, tchebychev_II_analogique, design_riia", I+"filtrage.hpp: design_riia"])
P("C67","Carrier recovery loops",
 "The complex PLL gives the same output for any partition of its input. With a first-order loop of time constant tau, a carrier of initial phase phi and pulsation w comes out with the residual phase w/alpha + (phi - w/alpha) exp(-k/tau), up to twice the angle error of the oscillator table (less than 4e-8 rad): phase errors vanish, frequency errors leave the constant w/alpha; so long as it stays in the range of the detector, whatever the amplitudes and the symbols. With a second-order loop of bandwidth below 1/4 both are cancelled up to a multiple of the table error. The second-order loop filter follows every phase ramp without error if and only if its bandwidth is below 1/4. reset is a full reset. The real PLL without filter only multiplies its input by a factor of modulus at most 1 (no carrier is regenerated).",
 "all carriers, amplitudes, symbol sequences, detectors, bandwidths, time constants, partitions (exact arithmetic)",
 "Convergence of a feedback loop over an unbounded time, for all signals.",
 [S+"telecom/carrier-rec.cc: LF1, LF2, CPLL, RPLL", I+"telecom.hpp: filtre_boucle_ordre_1, filtre_boucle_ordre_2, cpll_création, rpll_création, PLLConfig", S+"tsd.cc: OLUT"])
P("C68","Phase error detectors",
 "The default detector returns the phase in (-pi, pi); the tan loop returns exactly the phase error of an M-PSK symbol within pi/M, whatever the symbol and the amplitude; the power loop returns A^M sin(M t)/M, the Costas detectors A^2 sin(2t)/2 (M = 2) and sqrt 2 A sin t (M = 4), other M are refused; the decision-directed detector returns the error within pi/M of every point of the PSK constellations. The detector chosen automatically for PSK is the power loop, whose sign is right on the constellations of the library except QPSK, where it is reversed (the loop settles pi/4 off, which the demodulator corrects).",
 "all orders, symbols, amplitudes, phase errors (exact arithmetic)",
 "Over continua of amplitudes and phases and all orders.",
 [S+"telecom/carrier-rec.cc: ped_costa, ped_ploop, ped_tloop, ped_decision, ped_init", I+"telecom.hpp: PedType, ped_init"])
P("C69","Frequency estimation",
 "On a pure tone of any non-null amplitude and any frequency of (-1/2, 1/2], of 3 samples or more, freqestim with its default method returns exactly the frequency; the maximum of the FFT and the quadratic interpolation are within half a bin (modulo 1), the latter exact on the bins, and both always return a frequency of (-1/2, 1/2]. localise_pic_frequence, on a non-null signal of even length, never throws, gives a peak to mean ratio between 1 and N, is within half a bin on tones, and exact with ratio N on the bins. Findings: the default method can return more than 1 on other signals; the quadratic method is 0/0 on an impulse; localise_pic_frequence throws on a tone of bin (N-1)/2 when N is odd.",
 "all lengths, amplitudes, frequencies, signals (exact arithmetic)",
 "Over a continuum of frequencies and amplitudes and all lengths.",
 [S+"fourier/freqestim.cc: freqestim, fréq_estim_candan2, fréq_estim_quadratique", S+"telecom/carrier-rec.cc: SuiviPicFrequence::step, localise_pic_frequence", I+"fourier.hpp: freqestim"])
P("C70","Frequency axes and power spectra",
 "For even sizes, entry i of tfd_freqs is the frequency of bin i (before or after fftshift), every value returned by psd on a complex signal is the power of the Hann-windowed signal at the frequency written next to it, and psd_welch returns the sum of these powers over the windows of hop N/2. Findings: for odd sizes the axes are half a bin off (or start at -1/2); for real signals the axis is i/(n-2) instead of i/n; psd_welch never uses the last complete window (one window of data: null spectrum) and does not return for N = 1.",
 "all sizes, signals, windows (exact arithmetic)",
 "For all signals and sizes.",
 [S+"fourier/freqestim.cc: tfd_freqs, psd_freqs, psd_welch", I+"fourier.hpp: psd, tfd_freqs, psd_freqs, psd_welch"])
P("C71","Delay estimation and alignment",
 "estimation_délais, on any two signals not both empty, answers without dividing by zero, with a score in [0, 1), and its delay is within half a sample of a lag where the modulus of the correlation is the largest over all lags. If the second signal is the first delayed by d (either sign) and multiplied by c <> 0, the delay is exactly d and the score is 1 up to the 1e-50 of the code; estimation_délais_entier returns d; aligne_entier returns two vectors of the length of the common part, the second being c times the first sample by sample. On any two signals the integer delay is a lag of greatest correlation (ties included), and if they overlap somewhere aligne_entier returns the windows of both signals at that lag. Findings: with a silent signal the delay is -(N-1); aligne_entier of silence reads out of bounds for most lengths; coherence is 1 in every bin whatever the signals (no averaging), and 0/0 if a bin is null.",
 "all signals, lengths, delays, gains (exact arithmetic)",
 "Over all signals, lengths and lags.",
 [S+"fourier/estimation-delais.cc: estimation_délais, estimation_délais_entier, aligne_entier", S+"fourier/fourier.cc: coherence", I+"fourier.hpp: estimation_délais, aligne_entier, coherence"])
P("C72","Symbol clock recovery",
 "Whatever the input and the way it is cut into blocks, from 4 samples per symbol on (3 for one reading per symbol), clock_rec_init/step outputs exactly the values interpolated at the instants T_k defined by the loop (start at half a symbol minus one sample, K2 readings per symbol, after each symbol a move of at most a quarter of a symbol commanded by the Gardner error), one reading out of K2, and all of those that fall within the input: the cutting does not matter. Only a block longer than 3.75 symbols can make the call throw. Two outputs are 3/4 to 5/4 symbol apart, which bounds the number of outputs from both sides. If the error is null at the nominal instants, the signal is read there for ever. The error has the sign of the timing offset at a transition and does not depend on the carrier phase; the linear interpolator reads ramps exactly with a delay of one sample. Findings: the detector of the configuration is not consulted (early-late and Mueller-Muller are silently Gardner); at 2 samples per symbol the phase becomes negative and the cubic spline interpolator throws at the first correction; on one long block a ramp makes the output buffer (2 + n/osf) too small and the call throws.",
 "all inputs, block cuttings, interpolators valid on (0,1], oversampling, time constants (exact arithmetic)",
 "Over all signals, all cuttings into blocks, and infinitely many feedback trajectories.",
 [S+"telecom/clock-rec.cc: ClockRec, TedGardner, TedMM, TedEL", S+"reechan/itrp.cc: InterpolateurCSpline, InterpolateurLineaire, InterpolateurLagrange", I+"filtrage.hpp: InterpolateurRIF::step", I+"telecom.hpp: ClockRecConfig, clock_rec_init"])
P("C73","SNR estimation (Matzner)",
 "For every forgetting coefficient, signal and cutting into blocks, the n-th outputs of snr_Matzner are S = sqrt(2 M2^2 - M4) and N = M2 - S, with M2, M4 the exponentially weighted moments of all the samples received so far, or NaN exactly when 2 M2^2 < M4. The noise power is never negative and the signal power never more than M2. On a constant modulus signal without noise, S tends to its power and N to 0 with an explicit geometric rate. Multiplying the signal by a complex constant multiplies both by its squared modulus. Finding: the estimator starts from null moments without correction, so the first outputs are NaN for every non-null signal when the coefficient is less than 1/2 (6 samples with the default).",
 "all coefficients in (0,1], signals, cuttings (exact arithmetic)",
 "Over all signals and all histories of the recursive moments.",
 [S+"telecom/snr.cc: Matzner::step", I+"telecom.hpp: snr_Matzner, EstimateurSNR"])
P("C74","Detection of a pattern",
 "In the FIR mode, for every non-null pattern of at least 2 samples, signal and cutting into blocks of at least 2 samples, the n-th output of the detector is the normalised correlation of the pattern with the samples ending at n (in [0, 1), the energy being increased by 1e-20 per sample and correlations below 1e-6 replaced by 0). Every detection reported has the true score of an alignment, above the threshold, with the position of the pattern relative to the block, and a fractional part within half a sample; inside a block it is the abscissa of the vertex of the parabola through the three scores around the peak, the gain being the height of the vertex when the three correlations are aligned. Two peaks selected in a block are at least one pattern apart or have the same score, and a score above the threshold greater than all those closer than one pattern is selected. A scaled pattern received alone inside a block gives exactly one detection, at its position, with the score sqrt(E/(E + M 1e-20)), and if the first and last samples of the pattern have the same modulus, the fractional position 0 and the exact complex gain. Findings: a block of one sample throws; a peak is reported although its immediate neighbour has a higher score (the criterion of the documentation fails); a pattern whose last sample is the first sample of a block is lost when the partial score at the end of the block before is above the threshold.",
 "all patterns, thresholds, signals and cuttings (exact arithmetic, mode RIF)",
 "Over all signals, all patterns, and all positions of the blocks.",
 [S+"fourier/detection.cc: DetecteurImpl::step", I+"fourier.hpp: détecteur_création, Detection, DetecteurConfig"])
P("C75","Fractional delay",
 "délais, on a signal of N samples and any delay of at most N samples in modulus (either sign, integer or not), does not throw and returns N samples, each one the sum of the inputs weighted by the band-limited kernel of period 2N at the difference of the instants minus the delay: rkern(u) = sin(pi u) / (2N tan(pi u / 2N)) for real signals, the mean of the 2N exponentials of frequencies -1/2 to 1/2 - 1/2N for complex ones. At integer delays this is the exact shift with zeros coming in. For real signals the outputs are continuous in the delay (Lipschitz constant pi times the sum of the moduli), through the integer values too, where another algorithm is used. A fractional delay never increases the energy. Findings: a real signal delayed as a complex one gets an imaginary part sin(pi tau)/(2N) (-1)^j sum_l (-1)^l x_l; an empty signal throws for a fractional delay and not for an integer one.",
 "all signals, lengths up to 2^28, real delays (exact arithmetic)",
 "Over a continuum of delays and all signals.",
 [S+"fourier/fourier.cc: délais, delais_fractionnaire_c, delais_fractionnaire_r, delais_entier, rtfr_calcule, irtfr_calcule", I+"fourier.hpp: délais"])
P("C76","Digital modulator, matched filter and emitter",
 "A modulator with an integer ratio r = floor(fe/fsymb) >= 1 samples per symbol is accepted for NRZ, unshaped, Gaussian and (taps of non-null sum) root raised cosine pulses, and rejected when fe < fsymb; the pulse has energy r and delais() is the centre of the symmetric pulses. For the linear modulations, whatever the cutting into calls, the emission is sum_k s_k g(n - k r), put on the carrier fi (real part if so configured), without break of the carrier between calls; NRZ holds each symbol r samples, with the mean power of the symbols; unshaped gives one impulse of height sqrt(r) per symbol; flush(n) emits the smallest whole number of null symbols covering n samples. The matched filter gives, at the sampling instants, sqrt(r E) times the sum of the symbols weighted by the normalised autocorrelation of the taps (1 for the symbol itself). NRZ modulation, additive noise whose mean over each symbol is below half the distance between points, filtre_adapté_décimation and decision recover the bits exactly. FSK has a constant envelope and, inside a call with NRZ pulses, a continuous phase going up by pi index s_k / A over symbol k. The emitter sends, for any sequence of frames, header and data completed to whole symbols, and null symbols covering the delay. Findings: the FSK phase restarts from 0 at every call; its deviation is relative to the largest symbol of the call (an inner symbol sent alone is emitted as the outer one); the delay announced by the emitter is -1/2 with the default number of coefficients.",
 "all configurations, symbols, bit streams, noises and cuttings (exact arithmetic)",
 "Over all symbol sequences, cuttings and noises.",
 [S+"telecom/modulateur.cc: ModGen", S+"telecom/modulations.cc: SpecFiltreMiseEnForme", S+"telecom/emetteur.cc: ÉmetteurImpl", I+"telecom.hpp: modulateur_création, émetteur_création, SpecFiltreMiseEnForme"])
P("C77","Discrete wavelet transform",
 "On a signal whose length is divisible by 2^depth, dwt performs depth levels (log2 levels for depth log2(N)+1): each one sends the even and odd samples of the current approximation through the lifting stages of the wavelet, approximations first, details after. For every length of at least 2^(depth-1) and every scheme, dwt and iwt end and keep the length, and dwt loses nothing: two different signals never have the same transform. With lift_haar the first values are block means and the detail j at scale i is the difference of the means of two neighbouring blocks of 2^i samples. With lift_db2, K times the approximation and 1/K times the detail are the outputs of the orthonormal Daubechies 4-tap filter and of its mirror (samples outside the signal being null in the stages), so the details of an affine signal vanish except the first. FormePolyphase is at every non-null z the product of the elementary matrices of the stages scaled by diag(K, 1/K), of determinant 1; QMF never fails and its analysis filters are, up to an even advance, H00(z^2) + z H01(z^2) and H10(z^2) + z H11(z^2), an alias-free pair. Findings: iwt does not invert dwt: after one level, for every wavelet, the sample of rank k comes back as the sample whose rank is the odd part of k (the temporary of merge is a view of the data), so it is exact only up to 2 samples; with Haar some signal is not given back for any length 2^d q >= 4 and depth d; both transforms never end when the length is below 2^(depth-1); K is never applied, so the energy is not kept; the synthesis filters G0 and G1 of QMF stay empty.",
 "all lifting schemes, signals, depths 1..32 (exact arithmetic)",
 "Over all schemes, lengths, depths and signals.",
 [S+"fourier/tod.cc: dwt, iwt, ondelette_gen, lift_haar, lift_db2, FormePolyphase, QMF", I+"fourier/tod.hpp"])

P("C78","Filter responses",
 "For every design (taps, real or complex rational function) repfreq returns the value of the transfer function at exp(2 pi i f) for every requested frequency, and a FIR filter fed with a complex exponential returns it multiplied by that value once its window is full. frmag returns n points at the frequencies i/(2n) with the modulus of the response. The step response of taps is their running sum, settled on the gain at frequency 0 from rank L-1; the impulse response of taps is the taps, that of a rational design is the non-empty beginning of the filtered impulse cut at the last sample which is at least a hundredth of the mean modulus of what precedes. The gains of the analysis are the moduli of the response at frequencies 0 and 1/2. frphase of a filter of linear phase with positive amplitude and delay D below n samples is -2 pi f D; frgroup of a filter of linear phase with |D| < n/2 is D between two points where the amplitude keeps its sign and not-a-number where it changes, the last point repeating the previous one; for symmetric taps D = (L-1)/2. A rational design over a power of z of the degree of its numerator is applied as its taps. Findings: frmag throws when an odd number of taps exceeds 2n; band-pass and band-stop kinds are decided on the magnitude at the Nyquist end alone, so a low-pass of gain 1/2 is reported band-pass; for n/2 < |D| < n the group delay is not-a-number everywhere; a rational design over a power of z of higher degree than its numerator is applied without its delay (1/z^2 as the identity).",
 "all designs, frequencies, numbers of points, signals (exact arithmetic)",
 "Over all designs, frequencies and numbers of points.",
 [S+"filtrage/filtre-analyse.cc: repfreq, frmag, frmag_rif, frphase, frgroup, repech, repimp, analyse_filtre", I+"filtrage.hpp: Design, filtrer"])

P("C80","Analogue modulations",
 "For every splitting of the signal into blocks: the polar FM discriminator returns 0 and then the increments of the phase of the signal brought into (-pi, pi], whatever the amplitudes; the AM modulator returns, in mode with suppressed carrier, the resampled signal times the carrier, with a carrier one plus the index times the signal over the peak of its block, and in the single sideband modes the delayed signal times the carrier plus or minus its filtered Hilbert transform times the carrier in quadrature, so that a tone gives the two sidebands with amplitudes (1 + A)/2 and (1 - A)/2, A being the positive amplitude of the Hilbert filter. The single sideband demodulator multiplies a tone above (below) the carrier by 1 + A (1 - A) and returns the difference of its two audio filters. Without RDS bits the stereo FM demodulator returns sum and difference of its two audio paths. Findings: the AM modulator with carrier depends on the block cutting and divides by zero on silence; the two sidebands are swapped in the modulator (mode USB sends the lower one); the AM demodulator in two-band modes never returns a sample; the demodulator in mode LSB is the one of mode USB; the FM demodulator throws as soon as a RDS bit is received.",
 "all signals, block cuttings, frequencies, indices, resamplers and audio filters (exact arithmetic)",
 "Over all signals and block cuttings.",
 [S+"telecom/analogique.cc: FMDiscri, ModulateurAM, DemodulateurAM, FMDemod", I+"telecom.hpp: AMConfig"])

P("C79","Comparison of bit streams",
 "For every two bit streams with at least a 1 each, cmp_bits returns an offset for which the number of 1s in coincidence is the greatest of all offsets, the two streams cut to the bits in common at that offset, the number of bits which differ among them (leaving out 50 bits on each side when more than 100 are in common) and that number divided by the number of bits examined. A stream compared with itself delayed or advanced by d bits among 0s gives the offset d and no error. cmp_bits_psk returns the comparison with the rotation of the symbols of the second stream (by l modulo 2^k) which has the fewest errors, the smallest rotation in case of a tie; no error if the first stream is one of those rotations. Findings: the documentation says that two bits are left out on each side (50 are); when one of the streams has no 1, or one rotation of the symbols has none (symbols all equal), the alignment reads outside the vectors.",
 "all bit streams up to 2^29/3 bits after padding, offsets, numbers of bits per symbol (exact arithmetic)",
 "Over all streams; the alignment relies on an FFT correlation of any length.",
 [S+"telecom/telecom.cc: cmp_bits, cmp_bits_psk", S+"fourier/estimation-delais.cc: aligne_entier", I+"telecom.hpp: CmpBitsRes"])

P("C81","Kalman filter",
 "For every linear model x_t = A x_{t-1} + B u_t + v_t, y_t = C x_t + D u_t + w_t with positive definite R, and every joint law of centred, white, uncorrelated noises with covariances Q and R and initial error with covariance P0: the filter built by filtre_kalman accepts every observation sequence, its error is centred, the matrix it maintains is the covariance of that error, the estimate is an affine function of the observations and no affine function of the observations has a smaller mean square error on any state. The covariance matrix does not depend on the observations and stays symmetric and positive. Without noise and from the true state the estimates are the states. For modele_constante the estimate after n observations is their sum over n + R and the variance R/(n + R). Whole-sequence processing returns the current state followed by the results of the steps. An observation never increases the variance of any combination of the states above its prediction. Arguments of wrong dimensions are rejected. The simulator follows the recursion of the model. On a scalar model dare satisfies the documented equation up to a^2 times the error it returns. Findings: steps ignores the first observation; a model made by ssm_lineaire has no Q and R and the filter rejects every observation; the gain of the extended filter is wrongly parenthesised (equal to the Kalman filter if C = I, different for C = 2, failure when the numbers of states and observations differ); dare uses element-wise products (never a solution for A = [1 1; 0 1]); kalman_ssg divides by C instead of multiplying and fails when the dimensions differ; the simulator of linear models does not advance the state and its first observation has no noise.",
 "all dimensions, model matrices, laws of the noises over any finite horizon, inputs, observation sequences and inversion routines (exact arithmetic)",
 "The optimality is a statement about every law of the noises and every affine estimator.",
 [S+"kalman/kalman.cc: FiltreKalman, FiltreEKF, FiltreSSM::steps, SSM::steps, dare, kalman_ssg, ssm_lineaire, modele_marche_aleatoire, modele_constante", I+"apps/kalman.hpp: SSM, SSMLineaire, FiltreSSM"])
P("C82","Channel simulators",
 "Channel emulator (ecp_création): for every sequence of blocks not shorter than the clock delay, each output block is the input block rotated by the frequency and phase offsets (the phase runs on from block to block), plus noise of standard deviation s on both components, minus its first samples, with 2 s^2 = P (fe/fbit) / 10^(Eb_N0/10), P being the power of the block; hence for every law of unit-variance draws the ratio (P/fbit) / (noise power/fe) is the requested Eb/N0. Without noise and delay the output does not depend on the cut into blocks. bruit_awgn adds an expected power 2 sigma^2 (complex) or sigma^2 (real). Dispersive channel: for every gain source and every accepted sequence of blocks the output is the product of the input stream and of the gain stream, no gain lost or reused. The Rayleigh gains have expected power 1 before filtering. doppler_distri is a nonnegative symmetric density, null beyond the maximum Doppler, with probability 2t/pi for a shift below fd sin t. bruit_thermique is k_B T B within one millionth. Findings: the clock delay is applied again to each block (samples lost at each call); a silent block gets no noise; the dispersive channel rejects every block shorter than the surplus of gains (sample by sample processing fails at the second call); the Rice gains are divided by the root of the mean complex square, so that their power is not 1.",
 "all configurations, block sequences, noise draws and laws of the draws, gain sources (exact arithmetic)",
 "They hold for every cut into blocks, every draw and every law of the noise.",
 [S+"telecom/ecp.cc: ECP::step, ECP::configure_impl", S+"telecom/simulation.cc: CanalDispersif::step, gen_bruit, randnc, doppler_distri, bruit_thermique", S+"telecom/telecom.cc: bruit_awgn", I+"telecom.hpp: ECPConfig, CanalDispersifConfig"])

P("C83","Frequency-domain resampling and chirp-z transform",
 "rééchan_freq applied to any sum of sinusoids with whole numbers of periods in the vector returns, on the new grid of round(n * ratio) points, the same sinusoids (frequency in Hz, phase, amplitude, up to the factor sqrt(n * ratio / round(n * ratio))), those above half of the new sampling frequency being removed; with an integer ratio L and an even length every real vector is interpolated (output sample L*i is input sample i); ratio one leaves the vector unchanged. Findings: with an odd length the highest representable frequency loses half of its amplitude (a vector of one sample becomes null); the instance for complex vectors drops the imaginary part; czt throws whenever the number of points differs from the length of the vector, and otherwise its values are not those of the z-transform: divided by sqrt(2n-1) at W = z0 = 1, wrong at any scale for the transform of size two (only the case of a single sample and a single point is right).",
 "all vectors, sums of sinusoids, ratios, sizes up to 2^29 (exact arithmetic)",
 "Over all vectors, sizes and ratios.",
 [S+"fourier/fourier.cc: rééchan_freq, czt", I+"fourier.hpp: rééchan_freq, czt"])
P("C84","Real-time spectrum",
 "For every sequence of blocks of the configured size, rt_spectrum returns one spectrum for each group of nmeans blocks, bin k being, in decibels, the power of the windowed signal at the frequency (k - Nf/2)/Nf, averaged over the blocks and the sub-blocks, plus 2^-126. In a frequency sweep each sub-block is placed at its offset, the masked bins do not contribute and each bin is divided by the number of its contributions. The sum over the bins of the displayed powers is the mean power of the windowed samples, and with a rectangular window the mean power of the signal; a tone of amplitude A at a whole frequency shows A^2 in its bin and nothing elsewhere, whatever the phases of the blocks. A block of another size and a mask wider than the spectrum are refused. Findings: in a sweep the division by the number of sub-blocks is made as well, so that the level of a bin covered once is divided by the number of sub-blocks; the normalisation flag of the transform plan is ignored.",
 "all configurations, windows, sequences of blocks (exact arithmetic)",
 "Over all configurations and sequences of blocks.",
 [S+"fourier/fourier.cc: Spectrum::configure_impl, Spectrum::step, TFRPlanDefaut", I+"fourier.hpp: rt_spectrum, SpectrumConfig"])
P("C85","Cost of the block filter",
 "ola_complexité returns the smallest power of two which holds the block and the tail of the filter, the number of zeros and the cost 10 N log2 N / Ne of two transforms per input sample. ola_complexité_optimise returns, for every filter of at most 2^30 taps, a block size which fills with the M - 1 zeros a power of two and whose cost is the lowest of all block sizes and all transforms up to 2^30 points. Finding: beyond 2^30 taps the results are not assigned.",
 "all filter lengths and block sizes (exact arithmetic)",
 "The optimality ranges over every block size.",
 [S+"fourier/fourier.cc: ola_complexité, ola_complexité_optimise"])

P("C86","Linear-phase amplitude and equiripple FIR design",
"For symmetric taps, rifamp2 and rifampn return at every frequency the real amplitude A(f) such that the frequency response of the taps is A(f) exp(-2 i pi f (N-1)/2); for antisymmetric taps whose first tap is not null the response is i A(f) times the same phase; rifamp, computed by an FFT on L points, returns the same values for an odd number of taps not above 2L. design_rif_eq(nc, D, W) returns exactly nc symmetric taps that are, for some strictly positive weights, the best weighted least squares approximation of the target D on the regular grid i/(2n) among all the symmetric filters of nc taps, so that no symmetric filter has a weighted error everywhere smaller than the smallest weighted error of the design; D and W of different sizes are rejected. From a list of bands the target is the level of each band, linear in between and 1 outside, the weights those of the bands plus 1e-10. design_rif_demi_bande returns, for odd n, n symmetric taps of centre 1/2 with A(f) + A(1/2-f) = 1 and an error equal to half that of its prototype at 2f. Findings: antisymmetric taps starting with a zero are taken for symmetric ones; rifamp multiplies the amplitude by cos(pi f) for an even number of taps and rejects more than 2L+1 taps; design_rif_eq divides by zero when the target can be attained exactly; a band after the first one that starts at the Nyquist frequency is rejected.",
"every tap vector, every frequency list, every grid size, every target and weight vector, every least squares solver, every list of bands placed on the grid, every odd length of the half-band filter",
"tests compare a few designs with plots or tolerances; optimality among all symmetric filters and the amplitude identity for all frequencies are statements over infinite sets",
[S+"filtrage/rif-eq.cc:rifamp_impl,riftype,rifamp2,rifampn,rifamp,lsi,design_rif_eq",S+"reechan/hb.cc:design_rif_demi_bande",I+"filtrage.hpp"])

P("C87","CIC transfer function and channel capacity",
"design_cic returns, for R, M > 0 and N >= 0, the rational function ((1 + z^-1 + ... + z^-(RM-1)) / (RM))^N at every non-zero z, and rejects the other parameters; cic_freq returns at every frequency f the modulus of that function at exp(2 i pi f), including the frequencies where sin(pi f) is null; its values are between 0 and 1, equal to 1 at the integer frequencies and to 0 at the other multiples of 1/(RM) when N > 0. capacite_canal_awgn(snr, B) is the c such that 2^(c/B) = 1 + snr, for snr > -1.",
"every R, M, N, every non-zero complex z (any field), every frequency, every signal to noise ratio",
"tests plot or compare the response on one grid; the identity between the rational function and the sine formula is over all frequencies and parameters",
[S+"reechan/cic.cc:design_cic,cic_freq",S+"telecom/limits.cc:capacite_canal_awgn",I+"filtrage/frat.hpp"])
P("C88","Responses of a linear array of sensors",
"steervec_1d(pos, angles) has one row per antenna and one column per source, with entries of modulus 1 and phase pos cos(angle). Findings: the phase is not multiplied by 2 pi although positions are in wavelengths; sensorcov_1d multiplies element by element and so rejects every case where the numbers of antennas and sources differ; its noise power grows with the signal to noise ratio.",
"every list of positions and angles, every signal to noise ratio",
"no test covers this module; the claims range over all array shapes",
[S+"apps/doa.cc:steervec_1d,sensorcov_1d",I+"apps/doa.hpp"])
P("C89","Labels of the axes",
"valeur_vers_chaine(t, unit) prints a decimal number and a power of ten (a prefix u, m, none, K, M or G of the unit, or an explicit exponent without unit) that read within 2^-22 times the power of ten of t: with a unit and |t| >= 1e-6 the relative error is at most 2^-22 and, below 1e12, the number is between 1 and 1000; without unit there is no exponent from 0.1 on and a number between 1 and 10 below. No label with fewer decimals is as near, and there are at most eight decimals. With the number of decimals given, the nearest decimal is printed. Every |t| <= 2e18 with a unit, 2e9 without, has a label. The ticks of an axis share one power of ten and one number of decimals, each label reads within 2^-22 of the power of ten of its tick, and ticks further apart than 2^-21 of it have different labels. Findings: the common exponent is that of the last non-null tick instead of the smallest, so that it depends on the order and different ticks can get the same label; an integer above 2^31 without unit is converted to int, which is undefined.",
"every value, every unit string, every number of decimals, every list of ticks (exact arithmetic)",
"the claims range over all reals and all lists of ticks; the test of the library only prints a few labels",
[S+"vue/unites.cc: valeur_vers_chaine, calc_expo_nb_chiffres, calc_expo_nb_chiffres_commun, ndigits", I+"vue.hpp: valeur_vers_chaine, calc_expo_nb_chiffres, calc_expo_nb_chiffres_commun"])
