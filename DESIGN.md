# Design of the formal model of multichannel-audio-tools

All Coq sources are in `rocq/theories` (logical name `Verif`).  For each component there are
up to four files: `XModel.v` (executable definitions, each citing the C/C++ lines it models),
`XSpec.v` (small independent specification, where one is needed), `XProofs.v` (lemmas) and
`XProps.v` (the property theorems, each closed by `exact`, followed by `Print Assumptions`,
and examples showing that hypotheses are satisfiable).

## Conventions

* A failed `CHECK`/`DCHECK` and undefined behaviour are distinct outcomes of the model
  (`Common.v`: `Ok`, `CheckFail`, `Undef`).
* Sample types: wherever a property is about buffering, chunking or bookkeeping the model is
  polymorphic in the sample type and in the arithmetic operations (no algebraic law assumed),
  so that the result also holds bit-for-bit for IEEE floats.  Where the property is an algebraic
  identity about real-valued signals the model uses Coq's `R` (or `Q`), i.e. exact arithmetic;
  float rounding is then outside the model and this is said in the comment.
* External libraries (Kiss FFT, Eigen, libm, std::sort, fread/fwrite) are function parameters of
  sections, with their assumed contract as an explicit hypothesis, never an axiom.

## Plan per property

| id | what is modelled | how it is proved |
|----|------------------|------------------|
| C01 | `CircularBuffer`/`PlanarCircularBuffer` state machine, data as a list with indices | refinement to a queue, induction over op sequences |
| C02 | same, overrunning writes | refuted with a witness; partial: the exact content after an overrun |
| C03 | same, full flag | refuted (zero-length Advance, overrun); partial under the weakest condition |
| C04 | `FixedDelayLine` with arbitrary memory after resize | invariant relating buffer to input history; induction over blocks |
| C05 | integer helpers over Z with explicit 32-bit overflow/UB outcome | direct proofs, bit lemmas |
| C06 | `CombinationsIterator::Next` and table | refinement to lexicographic successor; completeness by induction |
| C07 | `CrossProductRange`, `ArithmeticSequence` | induction |
| C08 | continued fraction loop over exact rationals | invariants of convergents; refutation for the tolerance |
| C09 | byte-level read/write | div/mod arithmetic |
| C10 | writer and reader on byte lists | symbolic evaluation of the parser on the writer's output |
| C11 | sample readers | induction over the requests |
| C12 | header parser chunk loop | induction over the inserted chunks; odd sizes refuted |
| C13 | header parser | refuted with a witness file; partial: writer-produced files |
| C14 | writer with failing sink | refuted with a witness; partial: header failure |
| C15-C17 | `RationalFactorResampler` and `QResampler` state machine, arithmetic abstract | invariant: state is a function of the input consumed |
| C18 | `BatchTopN` with relational nth_element/sort | invariant with multisets |
| C19,C20 | FIR, two-tap, decimator | invariants |
| C21,C22 | biquads over a field and over abstract operations | induction |
| C23 | `AppendBiquad`/`Simplify` over R | refuted for tiny coefficients; partial for exact zeros |
| C24 | `IsStable` over R | Schur-Cohn for degree 2 |
| C25,C26 | ladder filter | energy inequality; witness for smoothing |
| C27,C49,C50 | designs over R with trigonometric functions | field/nra |
| C28 | equaliser | identity by algebra, witnesses for refuted parts |
| C29-C31 | DRC curves over R and DRC state machine | case analysis; witnesses |
| C32,C33 | envelope, Teager | invariants, trigonometry |
| C34-C36 | spectrogram, inverse spectrogram, spectral processor with the FFT as parameter | invariants |
| C37 | decibels over R | ln/exp algebra |
| C38 | bit-level model of fast log2/exp2, tables transcribed | table sweep in Z lifted to R |
| C39-C41 | phasor, AGC, complex | induction, algebra |
| C42 | Nelder-Mead with arbitrary objective | invariants, termination by fuel bound |
| C43-C46 | mel, DCT, brickwall filters, windows | bounds over R; witnesses for out-of-bounds |
| C47 | Bluestein, reflection, convolution over a ring with a root of unity | DFT algebra |
| C48 | background level detector | invariant |
| C51,C52 | WAV header parser on arbitrary byte strings | induction over the chunk loop with the position as measure; witnesses |
| C53 | resampler configuration (rational factor, kernel, phase count) | arithmetic over Z and R; witness |
| C54 | conversion of a transfer function to reflection coefficients and taps | step-down recursion, polynomial identities, induction over stages |
| C55 | peak picking on top of `BatchTopN` | case analysis of neighbours; reduction to C18 |
| C56,C57 | Bessel functions, window transforms | power series with remainder bounds; integrals with Coquelicot |
| C58-C60 | FFT upsampling, periodic resampling, Gaussian convolution | DFT algebra with the FFT contract as hypothesis |
| C61 | moves, bookkeeping and setters of Nelder-Mead | refinement of one iteration to the published moves |
| C62-C67 | pole-zero filters, bilinear transform, frequency maps, Butterworth and Chebyshev prototypes | permutation of roots, polynomial products over C, Chebyshev polynomials, magnitude responses on the whole circle |
| C68 | the complete file produced by `WriteWavFile` | grammar of the RIFF format as the specification |
| C69-C74 | `signal_vector_util.h` | induction over lists; convexity; trigonometric sums; circular mean |
| C75 | `ArithmeticSequence` constructor, indexing and iteration | floor arithmetic over R |
| C76 | `StreamingLoudness1771` | composition of C21 with the averager; steady state of a tone; witness for a refused Init |
| C77 | `EnvelopeDetector` | composition of C21 and C15/C16; steady state; witness for Reset |
| C78 | `Loudness1771TwoWayCompressor`; coefficients of the K-weighting filter are a parameter | composition of C76, C32, C29 and C04; invariant over blocks; witnesses |
| C79 | `perceptual_filter_design.cc` | general product identity for dropped roots; bilinear transform with excess zeros; interval bounds for the gain; witnesses at low rates |
| C80 | `hifi/multi_crossover_filter.h`, on top of the crossover designs (C49) and the ladder filter (C25, C26, C54) | telescoping product over the crossovers; invariant of the nested all-pass loop; refinement of the filter chain to difference equations; witness for Init |
| C81 | `hifi/multiband_compressor.{h,cc}` on top of C80 and C31 | projection of every history to one controller per band; sum over bands by induction; composition with C31 and C80; witness for Reset |
| C82 | `portable/iir_design.c`: the Zpk functions; `qsort` is any function that the C standard allows | product identities over lists of roots; permutations; induction over runs of equal roots; witnesses |
| C83 | `portable/iir_design.c`: Butterworth and Chebyshev designs (elliptic ones not modelled) | the roots of the prototypes are those of C66/C67; bounds that keep roots clear of the tolerances; C82; magnitude formulas of C66/C67; witnesses |
| C84 | `write_wav_string.cc` (float overload); float values are rationals, infinities, NaN | cases on the sample value; induction over the blocks; C10 and C68; witness for NaN |
| C85 | `biquad_filter_coefficients.cc:216-312`, `porting.cc:23-69`, setters of the gain | squared gain as a quotient of quadratics in cos w; extreme value theorem, Fermat and Rolle; the roots of the slope are all candidates |
| C86 | `biquad_filter_coefficients.cc:179-215, 451-466` | invariants of the grid and bisection loops; single peak argument; witnesses |
| C87 | `biquad_filter_coefficients.cc:314-381` | Vieta; the impulse response minus one pole is geometric; induction for the bound, limits for sharpness; witness |
| C88 | `filterbanks/auditory_cascade_filterbank.cc:34-132, 204-290`, accessors | the stage loop keeps an invariant (rates, resonators, unit gain of every channel so far); bilinear transform algebra; Jury criterion for stability; C86 for the peaks; witnesses |
| C89 | `filterbanks/auditory_cascade_filterbank.cc:134-203`, decimator and first difference filters | induction over the stages and over the blocks; uniqueness of the specified signals; C22 for each stage and decimation of sinusoids |
| C90 | `signal_eigen_util.h:34-131` | cases on the position and mode; invariant of the scratch array; convergence by a contraction of the spread over n steps and a conserved weighted sum |
| C91 | `signal_generator.{h,cc}` without the noise generator | induction over the samples with the addition theorems; induction over the rows |
| C92 | `elliptic_functions.cc`, `portable/elliptic_fun.c` | the Landen (Gauss) transformation of the integral by differentiation; quadratic convergence of the moduli; bounds for K near m = 1 by reflecting the integral; Taylor bound for small arguments; algebraic inverse of each complex step; at complex amplitudes, the derivative of the result along the path compared with the integrand (each Landen step preserves the differential), with the principal branches tracked through invariants of the steps; Jacobi's imaginary transformation on the imaginary axis |
| C93 | `parametric_equalizer.cc` (gain matching, evaluation, Nelder-Mead fit), solver as parameter | normal equations of the regularised problem, uniqueness by definiteness; elimination solver by induction over the size; induction over the passes; the fit reduced to the searcher theorems of C42 |
| C94 | `portable/iir_design.c` 788-968, `biquad_filter_design_pole_zero.cc` 297-365 (elliptic prototypes) on top of C92, C82, C62 | every success decomposed into its steps; both versions reduced to the same roots; sn and cd bounded on the real axis through the Landen chain; sinh and arcsinh on the imaginary axis; for order 2 the degree equation by K(m) = 2 F(t0, m), and a quadrant invariant along the ascending chain; for orders 2 to 10 the coordinates of the addition theorem carried up the chain, with K(m) bounded by ln(4/k') + k'; the explicit form of cd in these coordinates also bounds the size of the roots, which keeps them clear of the tolerances of the C designs; the ascending step is injective where k|w|^2 < 1, so descending inverts ascending and the path integral of C92 gives the positions of the roots |
| C95 | the whole of `loudness/background_level_detector.*` on top of C77, C79, C26, C48, C37 | detector, slow smoother and tracker composed over a run of blocks; a double real pole in (0, 1) keeps the slow level in the range of the fast one; contraction towards the limits for settling; Reset by comparing the detectors' outputs |

## What each property claims, and what is missing

| id | status | note |
|----|--------|------|
| C01 | proved | complete |
| C02 | partial | The documented oldest-first order after an overrun is false of the code (witness); the partial theorem gives the content that is actually delivered. |
| C03 | partial | IsFull() disagrees with NumReadableEntries() after a zero-length Advance on a full buffer or an overrun; equivalence proved for histories without those. |
| C04 | proved | complete |
| C05 | proved | complete |
| C06 | proved | complete |
| C07 | partial | The empty shape gives an empty range although the nested loop would run once, and FlatIndex truncates indices above the int range; both refuted with witnesses, everything else proved. |
| C08 | partial | With the default convergence tolerance the result is not best when max_denominator is large (witness); best approximation proved for tolerance 0 and for default tolerance up to max_denominator 499999999. |
| C09 | proved | complete |
| C10 | partial | Round trip proved for fewer than 65536 channels and a byte rate that fits in an int; outside these limits the writer accepts arguments for which the claim is false (witnesses). |
| C11 | proved | complete |
| C12 | partial | Proved for chunks stored without the RIFF pad byte; an odd-sized chunk with its pad byte makes the reader fail (witness). |
| C13 | partial | True when the data chunk holds whole frames; refuted otherwise. |
| C14 | partial | The generic header and sample writers report exactly; WriteWavFile ignores failures while writing samples (witness). |
| C15 | partial | Bit for bit for the portable resampler with arbitrary arithmetic. For QResampler and the C++ RationalFactorResampler proved when a dot product may be split (exact arithmetic); bit-for-bit equality is refuted in single precision. |
| C16 | proved | complete |
| C17 | proved | complete |
| C18 | proved | For every sort and selection allowed by the C++ standard and every strict weak order. |
| C19 | proved | Bit for bit: no law of arithmetic is assumed. |
| C20 | proved | complete |
| C21 | proved | Block boundaries without any law of arithmetic; the difference equation over every field. |
| C22 | proved | Over every field. |
| C23 | partial | The claim is false of the code: coefficients below 1e-10 are treated as zero, so appending to a lowpass for a very low corner frequency changes its gain by a factor four (witness). Proved: exact with tolerance 0 for every cascade; exact with the tolerance of the code for every history of appending well scaled stages; the loops terminate within the vector bounds. |
| C24 | proved | Over the reals. For the cascade version soundness is proved; it is undefined when a stage has a zero numerator. |
| C25 | proved | For every history of Change, Reset and Sample calls, over the reals. The documented CHECK on coefficients of magnitude one or more does not exist: they are clamped. |
| C26 | partial | The claim is false of the code: the tap gains never reach their target because the final assignment is reversed, and Reset in mid-transition freezes the interpolated coefficients. Proved: reflection coefficients reach the target exactly and never leave the range of the requested values. |
| C27 | partial | Everything proved over the reals except: the gain at the centre frequency fails below fs/10^7 because the code stops prewarping there (witness), an allpass at exactly the smallest accepted group delay is 0/0 (witness), and a symmetric peak with gain 0 aborts. |
| C28 | partial | After ClearAllGains the equaliser is exactly transparent (proved). The cascade has one stage per enabled stage only: bypassed stages are removed (order claim refuted), and fitting gains aborts whenever a stage is bypassed (refuted). |
| C29 | proved | Over the real numbers; slopes give monotonicity and (Lipschitz) continuity. |
| C30 | partial | The five-region curve holds whenever the soft ratio is positive; the validity check accepts non-positive soft ratios, for which it fails. |
| C31 | partial | Output formula and block-size independence proved. The crossfade never happens (aliased buffers) and Reset loses the parameters and keeps the lookahead samples; what Reset does achieve is proved. |
| C32 | proved | Range holds for every history when the interpolation rate is at most a tenth of the sample rate; a counterexample shows the accepted rates near Nyquist overshoot. |
| C33 | proved | The operator formula is for arbitrary numbers and operations; the sinusoid is over the reals. |
| C34 | proved | Proved for every window (2 to 2^30 samples), step, history and sequence of calls of both kinds, with rdft as an arbitrary length-preserving function and abstract arithmetic (so also bit-exactly for floats). Finding: ResetSampleBuffer before any Initialize writes to an empty vector. |
| C35 | partial | Overlap-add, Flush tail and exact reconstruction proved for step <= frame. Refuted of the code: Flush after Initialize(window, step) loses the window and frame size; Flush(NULL) dereferences NULL; a step larger than the frame is accepted but ignored. |
| C36 | partial | Output = overlap-add of the processed blocks of the delayed input, constant latency and size preservation proved for every block, hop <= block, chunk-size list, callback and chunk sequence. Refuted of the code: an accepted empty chunk loses the overlap, hop > block is accepted but aborts, hop 0 is accepted but loops for ever, and the callback is told block/2+1 frames instead of the block length. |
| C37 | proved | Over the reals. |
| C38 | partial | All float roundings are modelled with Flocq's binary32 format; tables are checked entry by entry against proved logarithm bounds. The documented 0.5% of FastPow holds for /y/ <= 1.8 and is refuted for larger exponents. |
| C39 | proved | Exact arithmetic, as the property says; C39_amplitude_drift also covers a rotator of any magnitude. |
| C40 | partial | Averages in exact arithmetic, gain with all float roundings except that of exp in Init. The header's formula for warm-up is off by one (refuted); the code averages a 1 with the samples seen so far. |
| C41 | proved | Over the reals, for every exponent frexp may choose. |
| C42 | partial | Termination, bounds, minimum, budget and monotonicity are proved for every objective. Refuted: with Scalar=double a rounded comparison can drop the lowest value; tolerance 0 is not ignored; an infinite vertex value ends the search. |
| C43 | partial | Triangular mel filters, partition of unity, in-bounds access and inverse formula proved for upper limits up to Nyquist (real arithmetic). Refuted of the code: upper limits above Nyquist are accepted but read/write out of bounds, EstimateInverse can divide 0 by 0, and a failed re-Initialize leaves an inconsistent object that reads out of bounds. |
| C44 | partial | Documented transform, linearity, orthogonality and the whole MFCC pipeline proved (real arithmetic); Mfcc is safe after failed initialisation, but Dct itself is not (refuted: out-of-bounds read). |
| C45 | partial | Exact in real arithmetic, and characterised for every monotone rounding; the documented half-bin tolerance does not exist, the highpass aborts on the top half bin of its documented range, and in single precision the Nyquist bin can be dropped. |
| C46 | partial | Normalisation, evenness, documented formula, support, range, unimodality, sample positions, symmetry, 50% overlap and history independence proved for every window (real arithmetic; upper bound 1 of the Kaiser window for beta < 21). Refuted of the code: Planck-taper samples depend on the radius; Eval(0)=1 fails after set_radius below epsilon; the quartic window is negative just outside the radius and may be zero at endpoints it reports as nonzero; memoized samples survive set_radius. |
| C47 | proved | Exact arithmetic, relative to the stated contract of the Kiss FFT functions (met by the DFT itself). |
| C48 | partial | Range, exact hold/resume law, channel independence and success for valid parameters are proved for given fast and slow envelopes; 'Init validates the parameters it is given' is false (it tests the previous ones) and refuted. The computation of the two envelopes is added in C95. |
| C49 | partial | Flat sum proved when no coefficient falls below the 1e-10 tolerance of the cascade; refuted otherwise (order 8 at 45 Hz). The documented 3 dB bump of Butterworth crossovers exists for even orders only. |
| C50 | proved | Over the reals; also the whole magnitude response and the bandpass. |
| C51 | partial | Proved: a file cut in its header is rejected or the error flag is set. Refuted: a file cut right after the data identifier is accepted with return value 1. |
| C52 | partial | Header robustness proved for every byte string; reading samples after a failed header divides by zero (witness). |
| C53 | partial | Refuted for small filter_radius_factor; proved under numerator <= denominator * taps. |
| C54 | partial | Proved for reflection coefficients that are not zero; a zero reflection coefficient is attenuated by 1 - 10 eps per stage (witness). |
| C55 | partial | Proved without wrap-around. With wrap-around the code compares the endpoints the wrong way round: a plateau at the seam is missed (witness); proved when the endpoints do not tie with their neighbours. |
| C56 | partial | Parity and positivity for every x; monotonicity and truncation accuracy for /x/ < 21 (power series). For x >= 21 the result is proved to be a partial sum of the standard asymptotic expansion with the documented stopping rule. Missing: the distance of that expansion from I_n, and rounding. |
| C57 | partial | Proved for the rectangular, cosine, Hamming, Hann, Nuttall and quartic windows at all frequencies not strictly inside the 1e-8 tolerance of a removable singularity; the Planck taper's transform is the documented quadrature. The Kaiser window's transform is proved to be the Fourier integral of the window with the true Bessel function (by integrating the product series term by term), from which Eval differs by at most 2 DBL_EPSILON for beta < 21. Missing: frequencies strictly inside the tolerances and rounding. |
| C58 | proved | Exact arithmetic, relative to the Kiss FFT contract. |
| C59 | proved | Exact arithmetic, relative to the Kiss FFT contract; rounding of the size computation not modelled. |
| C60 | partial | The transfer function and sum are proved; the documented infinite sum is a different filter for small sigma. |
| C61 | partial | The moves are proved. Refuted: the second worst vertex is searched without the last one, StandardDeviation lacks the division by the number of vertices, and the setters do not reset the count or apply bounds. |
| C62 | partial | Missing: roots within 1e-5 of zero but not zero, where the stage reduction tolerance applies. Refuted: a filter without roots loses its gain; Eval has the wrong sign for odd relative degree. |
| C63 | partial | Proved for filters with at least as many poles as zeros that are not negative at the point k. Refuted: the sign of a negative gain is lost, and an improper filter lacks the poles at Nyquist. |
| C64 | partial | Proved for every stable prototype whose mapped roots stay out of the 1e-5 tolerance (or has as many zeros as poles). Refuted: a corner frequency of zero is accepted and gives a pole on the unit circle. |
| C65 | partial | Proved when every real root is mapped to a complex pair and no root falls within the 1e-5 tolerance. Refuted: for wide bands real roots are replaced by complex ones, which gives a peak of gain above 3. |
| C66 | partial | Orders up to 50000; odd orders in bandpass and bandstop filters need bands narrower than 3+2 sqrt 2 in warped ratio (see C65_wide_band_refuted). |
| C67 | partial | Orders up to 25000; bandpass and bandstop filters of even order (odd orders: see C65_wide_band_refuted). |
| C68 | partial | Proved for up to 32767 channels and all but the last 12 bytes of the accepted size range; refuted there: with more than two channels the RIFF size wraps around. |
| C69 | proved | complete |
| C70 | partial | Real elements. Refuted: ZScoreNormalize of a constant signal with floor zero divides zero by zero. |
| C71 | partial | SmoothVector reads past an empty container, and pulls the ends towards zero, so constants are not kept (refuted). Missing: closeness of the four-pass kernel to a Gaussian. |
| C72 | partial | Maximum proved when the slope is not below the tolerance, and up to a quarter of the tolerance at a local maximum; refuted at the bottom of a symmetric valley, where the minimum is returned. |
| C73 | proved | complete |
| C74 | proved | complete |
| C75 | partial | Over exact reals. Size, order and iteration proved in full; the last element is refuted for large steps: the threshold that decides between limit and base+step*(size-1) is multiplied by the step, so 0:2^50:1.5*2^50 ends on 1.5*2^50. |
| C76 | partial | Refuted part: a refused Init has already replaced the channel weights, so that a working meter may read outside them. The coefficients of the K-weighting filter are a parameter here. |
| C77 | partial | Refuted part: Reset keeps the value reported by most_recent_output. The resampler configuration is a parameter (its construction is C53). |
| C78 | partial | Over exact reals. Refuted parts: Reset keeps the samples of the lookahead; Init accepts curves that every block then aborts on; a second-order averaging filter can produce a negative power, after which the gain is stuck. |
| C79 | partial | Over exact reals. Missing: sample rates where a real pole is mapped to within 1e-5 of zero without being zero (for 8 kHz and more: 0.8 Hz around 38327.5 Hz). Refuted: below about 6.3 kHz (D) and 3.4 kHz (K) poles are dropped but not zeros, and the filter is 6 or 12 dB too loud. |
| C80 | partial | Over exact reals. Missing: coefficients below the thresholds of Simplify (fine_crossover, clear_allpass); the signal theorem needs nonzero reflection coefficients (C54); acceptance is characterised for two and three bands. Refuted: Init aborts for some increasing frequencies, for example order 6 with prewarped ratio 1/sqrt 2. |
| C81 | partial | Over exact reals. C81_output needs nonzero reflection coefficients in the filterbank (C54) and a sample rate above 400 Hz (as C31). C81_reset_partial: lookahead 0 and parameters given to every band since Init; without that, refuted: Reset replaces the constructor's parameters by defaults (C31). |
| C82 | partial | Over exact reals. Refuted: ZpkToBiquads of a filter with different numbers of zeros and poles reads roots that were never written; a root that is almost real is accepted without its conjugate. |
| C83 | partial | Over exact reals. Odd orders of the band designs also need that the real pole does not nearly give a double pole (edge_clear). Refuted: orders above 30 overflow the arrays; band designs of order 16 to 30 report success and return a filter that is not the one asked for. |
| C84 | partial | Float values are rationals, infinities and NaN. Refuted for NaN: it is written as -32768, not as the intended 0. Channel count and byte rate restricted as in C10. |
| C85 | partial | Over exact reals. Missing: filters whose slope polynomial has a nearly but not exactly double root. |
| C86 | partial | Over exact reals. Refuted: a function that is nowhere positive gives 0, which may lie outside the range; the peak of a lowpass cascade at 0 is not found, and after SetPeakGain the gain at 0 exceeds the requested peak. |
| C87 | partial | Over exact reals. Nearly double poles: C87_poles_near bounds the error. Refuted: the estimate is not the time to decay below the peak value; with a double pole at 0.9 the response is only about 6 dB below its peak at the time estimated for 20 dB. |
| C88 | partial | Over exact reals. Missing: filterbanks with a numerator coefficient below 1e-10, which the cascade code then treats as a lower order filter. Refuted: a second Init reads past the end of a vector; max_pole_nyquist_fraction = 1 is accepted but aborts; a huge skip_every_n overflows. |
| C89 | partial | Over exact reals, under the condition of C88. Refuted: parameters that give no stages are accepted and ProcessBlock then reads an empty vector. |
| C90 | partial | Over exact reals. Everything claimed about the code is proved; refuted is the numeric example in the header, which belongs to the kernel [.1, .9, .1] instead of [.1, .8, .1]. |
| C91 | partial | Over exact reals. Refuted: a negative amplitude is outside the domain of std::polar; GenerateSineEigen subtracts the phase that GenerateSine adds. The white noise generator is not modelled. |
| C92 | partial | Over exact reals, against the integral defined with Coquelicot's RInt. Accuracy for m up to 1 - 2^-53, at real arguments, on the imaginary axis and along straight paths in the open strip. Refuted: beyond the quarter period the amplitude is folded, so cn(u/m) = cos(phi) has the wrong sign; for 0 < m <= 2^-104 EllipticF returns its argument, which is wrong by any amount at large imaginary arguments. |
| C93 | partial | Over exact reals; Eigen's LDLT is a parameter, needed to solve positive definite systems only in C93_gains and C93_flat (and a solver that does is constructed). C93_columns_partial needs stages of second order, otherwise AppendBiquad may merge them. Refuted: the search range is not adapted to the sample rate, so the default settings abort at 44100 Hz for a starting frequency of 21 kHz. |
| C94 | partial | Over exact reals. Missing: stability, totality and zeros beyond the cutoff above order 10; ripples outside 1 to 3 dB and attenuations outside 20 to 100 dB at orders 3 to 10; band filters of odd order; in C, corner frequencies within a millionth and band edges within a hundredth of the sample rate from the ends or each other; the equiripple behaviour (the positions of the roots are proved for orders 2 to 10, not what the response does between frequency 0 and half the sample rate). Refuted: nothing checks that the stopband ripple exceeds the passband ripple, nor that the order fits the arrays. |
| C95 | partial | Over exact reals; the resampler set up by Init is a parameter (a valid configuration, see C16 and C77), and the slow cutoff is below a quarter of the envelope rate. Refuted: MostRecentBackgroundLevelEstimate reports a linear level while GetBackgroundLevelEstimate reports decibels. Refuted too: a cutoff set with SetSlowSmootherCutoffHz is lost, for all later input, when Reset follows. The slewing itself is not specified further (see C26). |

## Findings

Places where the code does not do what its comments or interface promise.  Those marked with a
theorem are proved of the model by a witness; the others were noticed while reading.

* Circular buffer: order after an overrun (C02) and `IsFull` (C03) are wrong.
* Cross product: the empty shape gives no element; `FlatIndex` truncates to int (C07).
* RationalApproximation: not best with the default tolerance and a huge denominator (C08); may give 0/1, by which resamplers then divide.
* WAV writer: channels above 65535 and byte rates above the int range are accepted (C10); `WriteWavFile` ignores failed sample writes (C14) and leaks the file on a header failure; its size limit is 12 bytes too large for more than two channels, so the RIFF size wraps (C68); `block_align` wraps from 32768 channels on.
* WAV reader: pad bytes of odd chunks are not skipped (C12); sample counts need not be whole frames (C13); a file cut after "data" is accepted (C51); reading samples after a failed header divides by zero (C52); a cut identifier keeps old bytes of the buffer; `w` and `info` are dereferenced before the null check.
* Resamplers: splitting a dot product changes float results (C15); a small `filter_radius_factor` with a large factor is accepted but aborts (C53).
* Cascades: coefficients below 1e-10 are dropped, which changes gains (C23, C49, C62); `Convolve` of all-zero polynomials reads before the array.
* Ladder filter: final assignment of the tap gains is reversed and Reset in mid-smoothing freezes coefficients (C26); zero reflection coefficients are attenuated (C54); coefficients of magnitude one are clamped, not checked.
* Designs: no prewarping below fs/10^7, allpass 0/0 at the smallest delay (C27); the "phase delay" of the allpass is an advance.
* Equaliser: bypassed stages are removed, and fitting gains then aborts (C28).
* Equaliser fit: the range of frequencies is not limited by the sample rate, so with the default settings the search designs filters above half the sample rate and aborts, for example at 44100 Hz from 21 kHz; a starting guess outside the ranges is moved into them silently (C93).
* Pole-zero filters: gain lost without roots, sign of Eval (C62); sign of the gain and improper filters in the bilinear transform (C63); frequency 0 accepted (C64); real roots in wide bands (C65); low crossover frequencies (C49).
* Dynamic range: non-positive soft ratio accepted (C30); no crossfade, Reset drops parameters and keeps lookahead (C31); `Set` followed by `Init` uses old time constants; `Set` before `Init` dereferences null.
* Envelope: attack and release are swapped in the comments; rates near Nyquist overshoot (C32).
* Spectrogram classes: empty chunk, hop above block, hop 0, wrong frame count (C36); Flush loses the window, null pointer (C35); `ResetSampleBuffer` before `Initialize`.
* Fast functions: 0.5% accuracy of FastPow fails for larger exponents (C38); warm-up formula of the gain control (C40).
* Nelder-Mead: tolerance 0, infinite values, rounding of the best value (C42); second highest vertex, standard deviation, setters (C61).
* Mel/MFCC: limits above Nyquist, 0/0 in the inverse, state after a failed Initialize (C43); Dct after failed Initialize (C44).
* FFT helpers: no half-bin tolerance, top half bin aborts, Nyquist bin lost in float (C45); small sigma (C60).
* Windows: see C46; memoized samples survive `set_radius`.
* Background level detector: Init checks the previous parameters (C48); negative sensitivity freezes the level. MostRecentBackgroundLevelEstimate is linear while GetBackgroundLevelEstimate is in decibels, and a new slow cutoff followed by Reset has no effect (C95).
* Vectors: `ZScoreNormalize` 0/0 (C70); `SmoothVector` of an empty container and at the ends (C71); `QuadraticInterpolateMax` at a valley (C72); `RootMeanSquareError` of empty vectors is 0/0.
* ArithmeticSequence: last element for large steps (C75).  Loudness: refused Init (C76).  Envelope detector: Reset (C77); the return value of the resampler's Init is ignored.  Loudness compressor: Reset keeps the lookahead, curve unchecked, NaN envelope (C78).
* TopNPeaks with wrap-around compares the end points the wrong way round (C55).
* Perceptual filters: at low sample rates (D below about 6.3 kHz, K between about 2.7 and 3.4 kHz) a pair of poles is dropped while the zeros stay; the bilinear transform then multiplies the response by 1 + 1/z once (6 dB) or twice (12 dB) (C79).
* Multi-band crossover: Init aborts where the phase correction is within 1e-5 of a multiple of pi, for example two equal frequencies with order 4, or order 6 with prewarped ratio 1/sqrt 2 (C80); with one band or fewer the constructor makes a vector of negative size before its CHECK; `resize` in SetCrossoverFrequencies could leave new filters uninitialised; the tap gain order of C26 applies to SetCrossoverFrequencies.
* Multi-band compressor: SetCrossoverFrequencies does not store the frequencies, so a later Init goes back to those of the constructor (C81_init_forgets); Reset replaces the constructor's parameters by defaults in every band (C81_reset_refuted); a negative number of bands makes a vector throw before the CHECK.
* Portable designs: orders above 30 write past the root arrays; band designs of order 16 to 30 ignore the failure of ShiftFromBaseband and report success (a Butterworth "bandpass" with gain 2^n at 0 Hz); ZpkToBiquads reads unwritten roots when the counts differ; a single almost real root passes ZpkSort (C82, C83).  Also: a cutoff of 0 is accepted although the poles are then on the unit circle, ripples are not validated, the highpass transformation divides by a root at 0.
* Float WAV strings: NaN becomes -32768, because `std::max(kLowest, NaN)` is evaluated before the test for NaN (C84).
* Peaks: the cascade search never looks at 0 or pi, so the peak of a lowpass is missed and SetPeakGain leaves the gain at 0 above the request (C86_dc_peak_refuted); FindPeakByBisection starts from (0, 0) and returns that when the function is nowhere positive (C86_range_refuted).  SetGainAtFrequency divides by zero at a zero of the response.
* Decay time: for double poles the estimate is far too short (C87_decay_refuted); the factor n + 1 in C87_decay_rate is the reason.
* Auditory filterbank: the coefficients are not cleared by Init, so a second Init of the same object evaluates old stages with sample rates past the end of a vector (C88_init_again_refuted); max_pole_nyquist_fraction = 1 passes the checks but a pole at half the sample rate aborts in BilinearTransform (C88_nyquist_refuted); the loop over channels overflows for a huge skip_every_n (C88_selection_refuted); parameters that give no stages are accepted and ProcessBlock then reads an empty vector (C89_no_stages_refuted).  GetSampleRate() is documented as the rate passed to Init, but returns the rate of the first exposed stage (C88_channels_partial), which may be lower when first_channel is not 0; the proto says that channels m with m < max_channels are selected, the code selects max_channels of them.
* Smoother: the example in the header of ThreeTapSmoother gives [1.1, 2.2, 2.9], which is not the result for the documented kernel (C90_documented_example_refuted).
* Signal generators: the phase has opposite signs in GenerateSine and GenerateSineEigen (C91_phase_refuted); a negative amplitude is passed to std::polar (C91_negative_amplitude_refuted).
* Elliptic functions: JacobiAmplitude folds its result into |real(phi)| <= pi/2, so the documented cn(u|m) = cos(phi) holds only up to the quarter period (C92_beyond_quarter_period_refuted). For 0 < m <= 2^-104 EllipticF returns its argument; on the imaginary axis, where the integral is bounded by K(1 - m), the error exceeds every bound (C92_tiny_parameter_refuted).
* Elliptic designs: neither version checks that the stopband attenuation exceeds the passband ripple; such designs compute with infinities or roots of negative numbers (C94_ripple_order_refuted).  Orders above 30 write past the root arrays of the C version (C94_large_order_refuted).

## What is modelled and what is not

Modelled (file: properties):

* `circular_buffer.h`: C01-C03; `fixed_delay_line.h`: C04; `number_util.{h,cc}`, `portable/number_util.c`: C05-C08, C75
* `portable/serialize.h`: C09; `portable/read_wav_file*.c`, `write_wav_file*.c`: C10-C14, C51, C52, C68
* `resampler_q.{h,cc}`, `resampler_rational_factor.{h,cc}`, `portable/rational_factor_resampler*.c`: C15-C17, C53
* `batch_top_n.h`: C18, C55; `fir_filter.*`, `two_tap_fir_filter.h`, `factor_two_decimator.h`: C19, C20
* `biquad_filter*.h`, `biquad_filter_coefficients.*`: C21-C24, C85-C87; `porting.cc` (quadratic roots): C85; `write_wav_string.cc`: C84
* `ladder_filter*.h`: C25, C26, C54; `biquad_filter_design.cc`: C27; `parametric_equalizer.*`: C28, C93
* `biquad_filter_design_pole_zero.cc`, `filter_poles_and_zeros.*`, `discretization.*`, `crossover.*`: C49, C62-C67; `perceptual_filter_design.*`: C79
* `hifi/dynamic_range_control*`: C29-C31; `hifi/multi_crossover_filter.h`: C80; `hifi/multiband_compressor.*`: C81; `attack_release_envelope.*`: C32; `teager_energy_filter.h`: C33
* `spectrogram/*`: C34, C35; `spectral_processor.*`: C36; `decibels.h`: C37; `mfcc/*`: C43, C44
* `portable/fast_fun*`: C38; `portable/phasor_rotator.*`: C39; `portable/auto_gain_control.*`: C40; `portable/complex.*`: C41; `portable/butterworth.c`: C50; `portable/iir_design.c`: C82, C83
* `nelder_mead_searcher.h`: C42, C61; `kiss_fft.cc`, `kiss_fft_util.cc`: C45, C47, C58-C60; `window_functions.*`, `bessel_functions.*`: C46, C56, C57
* `loudness/background_level_detector.*`: C48, C95; `loudness/streaming_loudness_1771.*`: C76; `loudness/loudness_1771_two_way_compressor.*`: C78; `envelope_detector.*`: C77; `signal_vector_util.h`: C69-C74
* `filterbanks/auditory_cascade_filterbank.*`: C88, C89; `signal_eigen_util.h`: C90; `signal_generator.*`: C91; `elliptic_functions.*`, `portable/elliptic_fun.*`: C92; the elliptic part of `biquad_filter_design_pole_zero.cc` and of `portable/iir_design.c`: C94

Not modelled:

* `third_party/kissfft`, `third_party/fft2d`, Eigen, libm and the C and C++ standard libraries: contracts only.
* Rounding, overflow to infinity and NaN in the models over the real numbers; 32-bit overflow of sample counts in the resamplers.
* Memory allocation failure, exceptions, threads, performance.
* Eigen's LDLT decomposition (a parameter of the fit of the parametric equaliser).
* `GenerateWhiteGaussianNoise` (random numbers), `fast_fun_compute_tables.c`, the rest of `porting.*`, `testing_util.h`, `eigen_types.h`, `types.h`, `logging.h`, `filter_traits.h` (type plumbing), `multi_crossover_filter.cc` (stale copy of the header's template).

## Seeded bugs: what the log does and does not show

`seeded/LOG.jsonl` has 824 edits of the model. The script that ran them took the line of the first
message of the compiler as the place of the error. In files that import Coquelicot that message is a
warning, so the script gave up on the file and counted every theorem depending on it as failed. This
happened for 159 edits logged before the fault was found. 77 edits have been run again with the fault
mended, and each made a theorem fail. Where a note says that a statement or definition no longer
typechecks, the edit changed the type of something, and all theorems depending on that file are listed.
84 edits are still marked inconclusive: some proof broke, but whether the theorems listed under
`not_checked` reject the edit was not established one by one. Rows in which a slow file might have hit the
time limit were left inconclusive as well.

## Trusted base

* The Coq 8.16.1 kernel (and `coqchk`).  No axiom, functor, module type or plugin is added; no kernel check is switched off.
* The standard library axioms printed by `Print Assumptions`, listed for every theorem below.  No axiom of any other library is used (Coquelicot and Flocq are built on the same four).
* The faithfulness of the transcription.  Every definition of a model cites the lines it models, and its comment says where it simplifies.
* The arithmetic: models polymorphic in the operations hold bit for bit for floating point; models over `R` are about exact arithmetic and say nothing about rounding, except where a rounding function is modelled (C38, C40, C45 and the float witnesses of C15).
* The stated contracts of external code, which are hypotheses of the theorems: Kiss FFT and fft2d, `std::sort`/`std::nth_element`, `fread`/`fwrite`/`fseek`, Eigen expressions, libm (exact real functions).

### Assumptions of each theorem

Abbreviations: `sig_forall_dec`, `sig_not_dec` are those of `ClassicalDedekindReals`; `funext` is `FunctionalExtensionality.functional_extensionality_dep`; `classic` is `Classical_Prop.classic`.

**Closed under the global context** (137 theorems): C01_fifo, C01_planar_fifo, C01_misuse_caught, C02_overwrite_order_refuted, C02_overwrite_rotated_partial, C03_is_full_partial, C03_is_full_sound_partial, C03_is_full_refuted, C04_delay, C04_delay_stream, C04_negative_delay, C05_modulo, C05_modulo_int_min_undefined, C05_modulo_bad_modulus, C05_round_down, C05_round_up, C05_gcd, C05_gcd_portable, C05_gcd_vector, C05_is_power_of_two_or_zero, C05_log2_floor, C05_log2_ceiling, C05_next_power_of_two, C05_next_power_of_two_too_big, C05_next_power_of_two_zero_undefined, C06_combinations, C06_fuel_irrelevant, C06_table, C07_positions_differ, C07_iteration_is_nested_loop, C07_every_vector_once, C07_count, C07_empty_shape_refuted, C07_flat_index_partial, C07_flat_index_refuted, C07_end_stays, C08_best_exact, C08_best_default_partial, C08_close_default_partial, C08_best_default_refuted, C08_bad_denominator, C09_unsigned_little_endian, C09_unsigned_big_endian, C09_signed, C09_float_bits, C10_write_read_round_trip_partial, C10_many_channels_refuted, C10_byte_rate_overflow_refuted, C11_reads_serve_one_stream, C11_chunking_invisible, C11_16bit, C12_unknown_chunks_ignored_partial, C12_padded_chunk_refuted, C13_remaining_whole_frames_partial, C13_remaining_refuted, C13_accounting, C14_header_and_samples_report_partial, C14_write_file_reports_refuted, C14_write_file_partial, C14_refuses, C15_portable_chunk_invariance, C15_portable_excess, C15_flush, C15_cpp_chunk_invariance_partial, C15_cpp_bit_exact_refuted, C16_portable_formula, C16_cpp_formula, C16_resample_signal, C16_reduced_factor, C17_portable_counts, C17_cpp_counts, C17_next_input, C17_fully_primed, C17_flush_complete, C17_portable_flush, C18_top_n, C18_unique, C19_fir_convolution, C19_fir_reset, C19_two_tap, C19_first_difference, C20_decimator, C20_evens_are_the_even_samples, C21_block_boundaries, C21_difference_equation, C21_equation_determines_output, C21_init_and_reset, C21_cascade, C21_cascade_sample_or_block, C21_portable, C21_cascade_reset, C22_steady_state, C28_stage_enabled, C33_operator, C34_frames, C34_chunking, C34_failed_initialize, C34_reset_uninitialized_refuted, C35_overlap_add_window, C35_overlap_add_fft, C35_flush_window_refuted, C35_flush_null_refuted, C35_large_step_refuted, C36_output, C36_empty_chunk_refuted, C36_large_hop_refuted, C36_zero_hop_refuted, C36_callback_frames_refuted, C51_truncated_header_refuted, C51_complete_partial, C51_cut_partial, C52_header_robust, C52_read_after_failure_refuted, C53_accepted_configuration_works_refuted, C53_condition, C55_peaks, C55_periodic_peaks_partial, C55_periodic_peaks_refuted, C68_well_formed_partial, C68_riff_size_refuted, C69_direct_form, C69_chunks, C71_chunks, C71_hermitian, C71_split_combine, C71_hermitian_extension, C76_init, C76_blocks, C76_vector, C77_uninitialized, C77_same_rate, C77_downsampled, C84_float_string_partial, C84_one_sample, C84_nan_refuted, C88_selection_refuted, C90_construct.

**`sig_forall_dec`** (4 theorems): C28_cleared_keeps, C62_history, C91_impulse, C91_impulse_refuses.

**`sig_forall_dec`, `funext`** (58 theorems): C23_simplify_zero_tolerance_partial, C23_append_well_scaled_partial, C23_simplify_complete, C24_zero_leading_coefficient, C24_polynomial_ratio, C29_documented_curves, C29_slopes, C29_limiter_bound, C29_no_amplification, C30_regions_partial, C30_monotone, C30_regions_refuted, C30_zero_ratio_refuted, C35_reconstruction, C36_latency, C41_arithmetic, C41_division, C45_bandpass_spectrum, C45_bandpass_rounded, C45_highpass_partial, C45_highpass_refuted, C45_tolerance_refuted, C62_gain_refuted, C62_eval, C62_eval_refuted, C69_convolution, C70_mean_variance, C70_max_magnitude, C70_find_max, C71_forward, C71_smooth_vector_partial, C71_constant_refuted, C71_block_dc, C72_location, C72_maximum_partial, C72_exact, C72_maximum_refuted, C75_size, C75_whole_steps, C75_elements_partial, C75_elements_refuted, C75_iteration, C78_five_regions, C79_roots, C81_parameters, C81_setters, C82_eval, C82_to_lowpass, C82_to_highpass, C82_bilinear, C86_bisection_partial, C86_range_refuted, C90_convolution, C90_refuses, C90_range, C90_repeated, C90_documented_example_refuted, C93_solver_exists.

**`sig_forall_dec`, `sig_not_dec`, `funext`** (156 theorems): C22_frequency_response, C23_append_refuted, C24_biquad_is_stable_exact, C24_cascade_sound, C24_cascade_zero_numerator_refuted, C24_stable_forgets, C24_stable_bounded, C25_energy, C25_bounded, C25_unstable_coefficients_refuted, C26_reflection_partial, C26_change_accepted, C27_lowpass, C27_highpass, C27_bandpass, C27_bandstop, C27_peak, C27_low_shelf, C27_high_shelf, C27_symmetric_peaks_inverse, C27_symmetric_peak_zero_gain, C27_bad_arguments, C32_recursion, C33_sinusoid, C39_oscillator, C39_amplitude_drift, C39_period, C40_init, C40_level, C40_header_formula_refuted, C41_abs, C41_sqrt, C41_exp, C41_hyperbolic, C41_identities, C42_stops, C42_bounds, C42_best, C42_lowest_partial, C42_monotone, C42_second_call, C42_budget, C42_stop_reason, C42_tolerance_partial, C42_tolerance_refuted, C42_infinite_refuted, C44_transform, C44_linear, C44_orthogonal, C44_failed_reinitialize_refuted, C45_time_domain, C46_eval, C46_periodic_samples, C46_overlap, C46_sqrt_hann, C46_radius_partial, C46_radius_refuted, C46_set_radius_refuted, C46_quartic_refuted, C46_history, C47_complex_transform, C47_real_transform, C47_wrong_sizes, C47_linear_convolution, C47_linear_convolution_times, C48_law, C48_total, C48_channels, C49_refused, C50_rejects, C50_bandpass_rejects, C50_lowpass, C50_highpass, C50_corner, C54_ladder_realises, C54_zero_reflection_refuted, C56_shape, C56_accuracy_partial, C56_asymptotic, C57_quadrature, C58_upsample_interpolates, C58_upsample_bandlimited, C59_periodic_resample, C60_gaussian, C61_moves, C61_improves, C61_reflection_partial, C61_reflection_refuted, C61_standard_deviation_partial, C61_setters_refuted, C61_starting_guess, C61_results, C62_coefficients_partial, C62_balanced, C63_bilinear_partial, C63_sign_refuted, C63_improper_refuted, C64_lowpass_partial, C64_highpass_partial, C64_refused, C64_zero_corner_refuted, C65_refused, C65_wide_band_refuted, C66_refuses, C70_z_score, C70_z_score_refuted, C70_rms_error, C73_phasors, C73_sine, C74_lowpass, C74_zero_phase, C74_highpass, C74_bandpass, C77_init, C77_formula, C77_downsampled_formula, C77_tone, C77_constant, C78_init, C79_analog, C79_standard, C79_digital_partial, C79_sufficient_partial, C79_meter_partial, C80_block_size, C82_to_bandpass, C82_to_bandstop, C82_band_capacity, C82_sort, C82_to_biquads, C82_to_biquads_refuses, C82_uneven_refuted, C82_almost_real_refuted, C85_set_gain_at_frequency, C86_cascade_peak_partial, C86_cascade_set_peak_gain_partial, C86_dc_peak_refuted, C87_poles_partial, C87_poles_near, C88_design_partial, C88_unit_gain_partial, C88_channels_partial, C88_refuses, C88_succeeds_partial, C88_init_again_refuted, C88_nyquist_refuted, C89_filterbank_partial, C89_block_size_partial, C89_filtered_output_partial, C89_frequency_response_partial, C89_no_stages_refuted, C91_sine, C91_negative_amplitude_refuted, C91_sine_eigen, C91_agree, C91_phase_refuted.

**`sig_forall_dec`, `sig_not_dec`, `classic`, `funext`** (213 theorems): C26_no_overshoot, C26_tap_gains_refuted, C26_reset_refuted, C27_bandpass_centre_refuted, C27_ranged_bandpass, C27_ranged_bandstop, C27_allpass, C27_allpass_minimal, C27_allpass_accepted_refuted, C28_cleared_is_transparent, C28_coefficients_partial, C28_order_refuted, C28_fit_refuted, C28_add_stage, C28_fit_gains_only, C31_output, C31_block_size, C31_reset_partial, C31_crossfade_refuted, C31_reset_params_refuted, C31_reset_lookahead_refuted, C32_range, C32_reset, C32_fast_interpolation_refuted, C37_scale, C37_inverse, C37_domain, C37_monotone, C37_products, C37_arrays, C38_bits, C38_log2, C38_log2_monotone, C38_exp2, C38_exp2_monotone, C38_exp2_integer, C38_pow_partial, C38_pow_general, C38_pow_refuted, C38_tanh, C40_level_bounds, C40_convergence, C40_gain, C40_gain_monotone, C40_strength_zero, C41_log, C41_acosh, C41_asinh, C41_acos, C41_asin, C42_lowest_refuted, C43_compute, C43_weights, C43_estimate_inverse, C43_rejects, C43_above_nyquist_refuted, C43_inverse_zero_refuted, C43_failed_reinitialize_refuted, C44_mfcc, C45_float_edge_refuted, C46_unimodal_partial, C46_symmetric_samples, C46_history_refuted, C48_range, C48_init_refuted, C49_linkwitz_riley_partial, C49_linkwitz_riley_gains_partial, C49_flat_refuted, C49_butterworth_partial, C49_bump_refuted, C50_bandpass, C57_fourier_partial, C57_kaiser, C60_documented_sum_refuted, C65_bandpass_partial, C65_bandstop_partial, C65_edges, C66_lowpass_partial, C66_highpass_partial, C66_lowpass_shape_partial, C66_highpass_shape_partial, C66_bandpass_partial, C66_bandstop_partial, C67_type1_lowpass_partial, C67_type1_highpass_partial, C67_type1_lowpass_shape_partial, C67_type1_highpass_shape_partial, C67_type2_lowpass_partial, C67_type2_highpass_partial, C67_type2_lowpass_shape_partial, C67_type2_highpass_shape_partial, C67_type1_bandpass_partial, C67_type1_bandstop_partial, C67_type2_bandpass_partial, C67_type2_bandstop_partial, C67_refuses, C71_coefficient, C73_average, C73_unweighted, C73_rotation, C73_whole_periods, C73_single, C73_refused, C76_failed_init_refuted, C76_formula, C76_average, C76_gain, C76_zero_weight, C76_tone, C76_presets, C77_range, C77_reset_refuted, C78_output, C78_block_size, C78_neutral, C78_reset_partial, C78_reset_refuted, C78_curve_unchecked_refuted, C78_negative_power_refuted, C79_common_rates, C79_reference_gain_partial, C79_low_rates_refuted, C80_linkwitz_riley_partial, C80_butterworth_partial, C80_in_phase_partial, C80_top_bands_partial, C80_butterworth_in_phase_partial, C80_band_coefficients_partial, C80_signals_partial, C80_reset, C80_two_bands, C80_three_bands_partial, C80_order_4_partial, C80_valid_frequencies_refuted, C80_refuses, C81_output, C81_neutral, C81_block_size, C81_reset_partial, C81_reset_refuted, C81_init_forgets, C81_refuses, C83_butterworth_lowpass, C83_butterworth_highpass, C83_butterworth_bandpass, C83_butterworth_bandstop, C83_chebyshev1_lowpass, C83_chebyshev1_highpass, C83_chebyshev1_bandpass, C83_chebyshev1_bandstop, C83_chebyshev2_lowpass, C83_chebyshev2_highpass, C83_chebyshev2_bandpass, C83_chebyshev2_bandstop, C83_small_order, C83_bad_frequency, C83_too_little_room, C83_large_order_refuted, C83_band_order_refuted, C85_peak_partial, C85_set_peak_gain_partial, C87_infinite_iff_unstable, C87_decay_rate, C87_decay_refuted, C92_complete, C92_incomplete, C92_amplitude, C92_inverse, C92_versions_agree, C92_complex, C92_path_on_axes, C92_imaginary, C92_imaginary_amplitude, C92_imaginary_transformation, C92_beyond_quarter_period_refuted, C92_tiny_parameter_refuted, C93_gains, C93_columns_partial, C93_previous_gains, C93_flat, C93_fit, C93_returns, C93_refused, C93_frequency_range_refuted, C94_structure, C94_versions_agree, C94_zeros_beyond_cutoff_partial, C94_first_order, C94_stable_second_order_partial, C94_stable_partial, C94_lowpass_partial, C94_highpass_partial, C94_bandpass_partial, C94_bandstop_partial, C94_portable_lowpass_partial, C94_portable_highpass_partial, C94_portable_bandpass_partial, C94_portable_bandstop_partial, C94_roots_partial, C94_refuses, C94_ripple_order_refuted, C94_large_order_refuted, C95_init, C95_uninitialized, C95_levels, C95_blocks, C95_reset, C95_range, C95_silence, C95_settles, C95_setters, C95_most_recent_refuted, C95_cutoff_then_reset_refuted.
