STATUS.update({
"C01": ("proved", ""),
"C02": ("proved", "Reading a word at any offset of any program-built stream; finding: append onto a stream being read resets nothing, see _refuted."),
"C03": ("proved", "Equality and Hamming distance on append-built streams; three counterexamples for the stronger documented reading."),
"C04": ("proved", "altern(n) yields n+2 bits (finding)."),
"C05": ("proved", "1<=k<=30 (above, the code overflows int: finding)."),
"C06": ("proved", "Encoder proved; decoder characterised exactly and documented law refuted."),
})
STATUS.update({
"C07": ("proved", "Periods and numbers of ones of the 16 table polynomials are finite computations inside Coq; autocorrelation, window property and state visit derived for all shifts and states."),
"C08": ("proved", "Counters unbounded in the model (uint64_t in the code); finding: constant zero input locks."),
})
STATUS.update({
"C09": ("proved", "Findings: N=0 loops for ever; reconfiguration keeps the old buffer."),
"C10": ("proved", "Exact arithmetic (any commutative ring); empty coefficient vector throws."),
"C11": ("proved", ""),
"C12": ("proved", ""),
"C13": ("proved", "Exact arithmetic (any field); constant denominator is UB (finding)."),
"C14": ("proved", "Exact arithmetic (any field)."),
"C15": ("proved", "Exact arithmetic (any commutative ring)."),
"C46": ("proved", "Direct form I satisfies the equation at every index, direct form II from the third sample on (first two samples given through the auxiliary signal); the two forms disagree on the start (finding). Root pairing in ChaineSOIS not modelled."),
})
STATUS.update({
"C16": ("proved", "Exact arithmetic (any commutative ring). Palindromic iff the documented filter-then-decimate law holds."),
"C17": ("proved", "Exact arithmetic; finding: coefficients are applied in reverse order."),
"C18": ("proved", "Exact arithmetic; finding: filters designed with n = 1 mod 4 taps have their nonzero taps skipped."),
"C19": ("proved", ""),
"C20": ("proved", "Output gain and int overflow left out; findings: block dependence, short blocks."),
})
STATUS.update({
"C21": ("proved", "Exact arithmetic; the quantisation of tau to 1/256 by the spline table is outside (each table column is proved). Sinc interpolator not modelled."),
"C22": ("proved", "Linear and natural cubic spline modes, exact arithmetic in any ordered field; finding: decreasing queries."),
})
STATUS.update({
"C23": ("proved", "Exact arithmetic (a field with roots of unity; the complex numbers are an instance)."),
"C24": ("proved", "Lengths 1 to 2^29; exact arithmetic; the next power of two is computed with an exact logarithm. Spelled out over the complex numbers in C24_fft_complex."),
"C25": ("proved", "Both directions, Parseval and the convolution law; exact arithmetic."),
"C26": ("proved", "Circular and linear correlations; finding: length mismatch gives a null result."),
"C27": ("proved", "1 to 512 real coefficients; findings: imaginary part of complex inputs is dropped, more than 512 coefficients is UB. The windowed variant is not part of this claim."),
"C49": ("proved", ""),
})
STATUS.update({
"C28": ("proved", "Exact arithmetic (any field where 2 is not 0); findings: sizes which are not powers of two."),
"C29": ("proved", "Exact arithmetic; offline value over the real numbers with the true cosine, streaming over any field."),
})
STATUS.update({
"C30": ("proved", "Exact arithmetic (any commutative ring); findings: roots * coefficients product off by 1, shift of a roots-mode polynomial."),
"C31": ("proved", "Exact arithmetic (any field); findings: operator precedence in eval_inv_z/rii, coefs_rif, z_power of negative exponents. Operands of mixed representations restricted by the C30 finding."),
})
STATUS.update({
"C32": ("proved", "Years 1 to 9999, with the double precision steps of the code (Flocq rounding). Findings: invalid dates accepted, instants before 1/1/1, year 10000."),
"C33": ("proved", "Julian days at every midnight and noon (double precision); finding: J2000() is off by 36525 days. Sidereal time not modelled."),
"C34": ("proved", "All microsecond instants from the epoch to January 2048, double precision included; finding: int overflow (UB) from then on. vers_GPS_us not modelled."),
})
STATUS.update({
"C35": ("proved", "Byte-exact file model with IEEE floats (Flocq); files below 2^29 bytes. Findings: larger files, partial frames, header fields, endless loop on a crafted chunk, seek/restart. The float product time * rate of recherche is not modelled."),
})
STATUS.update({
"C36": ("proved", "All programs over array variables (one element type): copies are snapshots, families stay apart under any interleaving, segment/tail/column views read and write exactly their range. Findings: size-mismatched segment assignment is ignored, resize leaves views dangling, overlapping assignment is undefined, block() only works for float and reads with the wrong stride, conservativeResize scrambles matrices, y = x.segment() aliases."),
"C37": ("proved", "Element reads throw exactly out of range; programs without views are never undefined. Findings: negative segment offsets, tail(n) too long, col(cols()), unchecked 2-D writes. int overflow of sizes not modelled."),
})
STATUS.update({
"C38": ("proved", "Any element type / ring. vconcat on the heap model of arrays; findings: matrix vconcat/hconcat, rotation by less than -n throws."),
"C39": ("proved", "Finding: trouve_dernier returns the position of the last false plus one."),
"C40": ("proved", "Exact arithmetic over the reals; findings: other ranges than 2 pi still jump, empty vector throws, float rounding makes modulo leave its range (Flocq witness)."),
"C52": ("proved", "Exact arithmetic over the reals; findings for odd periods and too small periods. p = 1 of sigscie (0/0) is excluded."),
"C53": ("proved", "Exact arithmetic over the reals (no rounding drift)."),
"C54": ("proved", "Exact arithmetic in any field."),
})
STATUS.update({
"C41": ("proved", "Exact arithmetic in any field; hypothesis: non-singular leading blocks (shown to follow from a definite quadratic form). lpc takes the correlation as given; finding: its documented sign is opposite."),
})
STATUS.update({
"C42": ("proved", "Exact arithmetic over the reals; ASK, PSK, QAM, FSK symbols, pi/4-QPSK. The search starts from 1e100 so received points must be that close. Findings: decoding a pi/4-QPSK stream in several calls restarts the alternation."),
})
STATUS.update({
"C44": ("proved", "Exact arithmetic over the reals. Findings: Cardan(q) has the convention opposite to Cardan(R), gimbal lock, mat() is never a homogeneous rotation matrix."),
})
STATUS.update({
"C43": ("proved", "Matrix over any commutative ring; the Eigen linear solver is a parameter, assumed to solve the normal equations in C43_least_squares. Findings: out-of-range writes for n < m in the matrix function, and of the target for (m,n) = (1,1), (1,2)."),
"C55": ("proved", "Exact arithmetic over the reals; the window shift (memcpy on overlapping blocks, formally undefined) is taken as memmove. Finding: the backward filter never adapts with CMA."),
})
STATUS.update({
"C47": ("proved", "Exact arithmetic. Findings: differentiators of odd order (default form) and all centred ones do not differentiate, order 2 has the opposite sign; the exponential filter does not have its -3 dB point at fc."),
"C48": ("proved", "Over the reals. Findings: Chebychev_U returns T_n, a negative degree gives a constant."),
})
STATUS.update({
"C45": ("proved", "Exact arithmetic; the half-band filter and the interpolator of the rate adapter are parameters. FHSS: first call only. Findings: FHSS oscillator index out of bounds, hop values unused, default slot duration loops for ever."),
"C50": ("proved", "Exact arithmetic (real phase, no accumulated rounding); half-band filter and sinc interpolator are parameters, linear and Lagrange ones concrete. Finding: ratios within 1e-6 of 1 are treated as 1."),
"C56": ("proved", "Exact arithmetic over the reals; the image filter is a parameter. The configured ratio_ar is never used by the code."),
})
STATUS.update({
"C57": ("proved", "Exact arithmetic over the reals. Finding: odd periodic windows do not have period n."),
"C58": ("proved", "Exact arithmetic over the reals; the inverse DFT is taken from its specification; the Bessel function is any positive non-decreasing function. Slepian windows are not modelled."),
})
STATUS.update({
"C59": ("proved", "Exact arithmetic over the reals (cut-offs above 1e-7, the threshold of sinc). Findings: even orders (band-pass throws, band-stop is undefined behaviour, low-pass not symmetric), lp and pb documented as equivalent differ."),
"C60": ("proved", "Exact arithmetic over the reals; instants within 1e-7 of the removable singularities, where the code uses the limit, are excluded. Finding: the telecom Gaussian filter is never symmetric for osf >= 2."),
})
STATUS.update({
"C61": ("proved", "Exact arithmetic. Finding: hilbert_tfd doubles the DC bin (and drops the Nyquist bin), so the real part of the analytic signal differs from the input by its mean."),
"C62": ("proved", "Exact arithmetic over the complex numbers. Findings: the interpolation grid k/(2M) is not the documented grid k/(2M-1); one coefficient throws."),
})
STATUS.update({
"C63": ("proved", "Exact arithmetic over the reals. Finding: unknown type names design a low-pass."),
"C64": ("proved", "Exact arithmetic over the complex numbers. Findings: sign of the high-pass change; coefficient form refused. The band-pass change (unreachable from design_riia) is not modelled."),
"C65": ("proved", "Exact arithmetic. Findings: odd-order high-pass filters are inverted; band-pass and band-stop always throw."),
"C66": ("proved", "Exact arithmetic. Type II of odd order is excluded: one of its zeros is 1/0 in exact arithmetic (1/cos(pi/2) in floating point). Finding: even-order type I filters amplify by d dB. The elliptic prototype is not modelled."),
})
STATUS.update({
"C67": ("proved", "Exact arithmetic over the reals; the oscillator table is modelled with its interpolation error. PLLConfig.freq and sortie_porteuse are ignored by the code. The low-pass filter of the real PLL is modelled but no locking property is stated for it."),
"C68": ("proved", "Exact arithmetic. Finding: the automatic detector repels the loop from the QPSK points of the library."),
})
STATUS.update({
"C69": ("proved", "Exact arithmetic over the complex numbers; index_max returns the first index of the largest element (ties matter only where the statements do not depend on them). Findings listed in the statement."),
"C70": ("proved", "Exact arithmetic; spectra before the conversion to decibels. Findings listed in the statement."),
})
STATUS.update({
"C71": ("proved", "Exact arithmetic over the complex numbers; sizes up to 2^29/3 (the transforms of the code). Findings listed in the statement."),
})
STATUS.update({
"C72": ("proved", "Exact arithmetic; the plots are not modelled; the second algorithm (clock_rec2_init) is not covered. Findings listed in the statement."),
})
STATUS.update({
"C73": ("proved", "Exact real arithmetic, NaN modelled as None. Finding: NaN outputs at the start."),
})
STATUS.update({
"C74": ("proved", "Exact arithmetic; FIR mode only (not the overlap-add mode); the noise and SNR fields of a detection are not modelled. Findings listed in the statement."),
})
STATUS.update({
"C75": ("proved", "Exact arithmetic; lengths up to 2^28 (2^29 for the real transforms). Findings listed in the statement."),
})
STATUS.update({
"C76": ("proved", "Exact arithmetic; int overflow of the number of taps not modelled; emitter theorems for the linear modulations only. Findings listed in the statement."),
})
STATUS.update({
"C77": ("proved", "Exact arithmetic; static initialisation order of Poly::z and the old wavelet classes under #if 0 not modelled. Findings listed in the statement."),
})
STATUS.update({
"C78": ("proved", "Exact arithmetic; magnitudes of taps for 2 n up to 2^29; the chains of second-order sections used by filtrer are a parameter here (see C46); lobe analysis and plots not modelled. Findings listed in the statement."),
})

STATUS.update({
"C80": ("proved", "Exact arithmetic; the resampler, audio filters, pilot PLL and RDS demodulator are parameters (any processor); Hilbert filter and local oscillator are the modelled ones (C61, C53). Findings listed in the statement."),
})

STATUS.update({
"C79": ("proved", "Exact arithmetic; the array of 2^k results on the stack is not modelled. Findings listed in the statement."),
})

STATUS.update({
"C81": ("proved", "Exact arithmetic. The matrix inversion is any routine which inverts every invertible matrix; an expectation is any positive normalised linear functional; noise laws over a finite horizon T (arbitrary). The Kitagawa and IMU models, the numerical Jacobian and the random generator are not modelled. Findings listed in the statement (theorems with suffix _refuted)."),
"C82": ("proved", "Exact arithmetic; draws of the random generator are arbitrary functions, their laws any positive normalised linear functional. The Doppler filter followed by the resampler is an arbitrary source of gains. Findings listed in the statement (theorems with suffix _refuted)."),
})
STATUS.update({
"C83": ("proved", "Exact arithmetic; negative sizes are not modelled; czt takes the square root of W as an argument (pow(W, 0.5)). Findings listed in the statement (theorems with suffix _refuted)."),
"C84": ("proved", "Exact arithmetic; the window is an argument (its shapes are those of C57); offsets of a mask below the first bin are undefined behaviour. Findings listed in the statement (theorems with suffix _refuted)."),
"C85": ("proved", "Exact arithmetic; machine overflow of the cost is not modelled. Finding listed in the statement."),
})

STATUS.update({"C86":("proved","Exact reals and complex numbers; the least squares solver (Tab::lsq) is an arbitrary function with the least squares property, whose existence is proved (C86_ex_solver). Findings stated as _refuted theorems (type read on two taps, rifamp with an even or large number of taps, exactly attainable target, band starting at Nyquist). Convergence of the reweighting iterations towards equal errors is not proved: C86_minimax gives the lower bound that holds after any number of them.")})

STATUS.update({"C87":("proved","Exact arithmetic. The plots and the other figures of cic_analyse and design_cic_comp are not modelled."),
"C88":("proved","Exact reals; the addition of the complex product and of the real identity matrix is taken after conversion. musicdoa_1d (eigenvalue decomposition) is not modelled. Findings are stated as _refuted theorems.")})
STATUS.update({"C89":("proved","Exact reals: the conversions of double to float are not modelled, nor the sign of a null number. The label is the decimal number (integer over a power of ten) and the text after it. Findings are stated as _refuted theorems.")})
