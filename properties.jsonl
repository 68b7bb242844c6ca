{"id": "C01", "title": "Circular buffer is a FIFO queue while the writer never overruns", "statement": "After Init(capacity), for every sequence of Write, Read, Peek, Advance and Clear calls in which each Write fits in the free space and each Read/Peek/Advance asks for at most NumReadableEntries(), the data returned by Read and Peek is exactly the oldest unread data, in order, nothing lost, duplicated or invented; NumReadableEntries() is exactly written minus consumed.", "quantifier": "every capacity > 0, every element type and value, every finite sequence of calls with every block size, for interleaved and planar buffers", "why_tests_cant": "the correctness depends on the joint position of two wrap-around indices and a full flag; tests sample a few block-size patterns, the property is over all histories", "anchors": ["audio/dsp/circular_buffer.h: CircularBuffer::Init, Write, Read, Peek, Advance, Clear, NumReadableEntries", "audio/dsp/circular_buffer.h: PlanarCircularBuffer"]}
{"id": "C02", "title": "Overwriting writes keep the newest data in order", "statement": "The header allows a write to overwrite old entries ('possibly overwriting old entries'). After an overrunning Write of at most capacity entries, Peek(NumReadableEntries()) returns the most recent capacity entries in the order they were written.", "quantifier": "every reachable buffer state and every overrunning write", "why_tests_cant": "whether it holds depends on where the read index stands relative to the write index, which tests with a single fill pattern do not vary", "anchors": ["audio/dsp/circular_buffer.h: CircularBuffer::Write, Peek"]}
{"id": "C03", "title": "IsFull agrees with the number of readable entries", "statement": "IsFull() is true exactly when NumReadableEntries() equals capacity(), after every sequence of calls.", "quantifier": "every sequence of calls, including zero-length Read/Advance/Write calls and overrunning writes", "why_tests_cant": "the flag is maintained separately from the counter; only an invariant over all histories shows that they agree or where they part", "anchors": ["audio/dsp/circular_buffer.h: CircularBuffer::IsFull, Advance, Write"]}
{"id": "C04", "title": "Fixed delay line delays by exactly the requested number of samples", "statement": "Concatenating the outputs of successive ProcessBlock calls gives delay_samples zeros followed by the input, truncated to the input length, whatever block sizes (up to max_block_size_samples) the caller uses, and whatever the uninitialised memory obtained by resizing contains; after Reset the line behaves as new.", "quantifier": "every delay >= 0, every maximum block size, every sequence of blocks (sizes 0..max) and contents, every channel count", "why_tests_cant": "the internal shift-and-copy is driven by the pattern of block sizes; tests try a few patterns", "anchors": ["audio/dsp/fixed_delay_line.h: FixedDelayLine::Init, ProcessBlock, Reset"]}
{"id": "C05", "title": "Integer helpers compute the documented arithmetic for all integers", "statement": "Modulo(a,b) is in [0,b) and congruent to a; RoundDownToMultiple/RoundUpToMultiple return the nearest multiple below/above; GreatestCommonDivisor terminates and is the gcd; IsPowerOfTwoOrZero, Log2Floor, Log2Ceiling, NextPowerOfTwo are exact on every argument for which no overflow occurs, and the arguments for which the C code overflows or shifts by a negative amount are exactly characterised.", "quantifier": "every 32-bit integer argument", "why_tests_cant": "the argument space is 2^32 or 2^64 and errors live at the corners", "anchors": ["audio/dsp/number_util.h: RoundDownToMultiple, RoundUpToMultiple, Log2Floor, Log2Ceiling, NextPowerOfTwo, IsPowerOfTwoOrZero", "audio/dsp/number_util.cc: Modulo", "audio/dsp/portable/number_util.c: GreatestCommonDivisor", "audio/dsp/portable/number_util.h"]}
{"id": "C06", "title": "Combination iterator enumerates every k-subset exactly once", "statement": "CombinationsIterator(n,k) visits each k-element subset of {0..n-1} exactly once, in increasing order inside each subset, and stops after C(n,k) visits; BuildCombinationsTable returns the corresponding table.", "quantifier": "every n >= 0 and 0 <= k <= n", "why_tests_cant": "combinatorial explosion: enumeration can be checked only for small n by testing", "anchors": ["audio/dsp/number_util.h: CombinationsIterator", "audio/dsp/number_util.cc: CombinationsIterator::Next, BuildCombinationsTable"]}
{"id": "C07", "title": "Cross product range is the nested loop over its shape", "statement": "Iterating CrossProductRange(shape) from begin() to end() visits the index vectors of the nested loop over the shape, first index fastest, each valid vector exactly once, for a total of the product of the sizes; incrementing end() stays at end; FlatIndex(n) is the iterator reached from begin() by n increments.", "quantifier": "every shape (any number of dimensions, any non-negative sizes) and every flat index", "why_tests_cant": "must hold for every shape, including shapes with empty dimensions and indices beyond the int range", "anchors": ["audio/dsp/number_util.h: CrossProductRange, CrossProductIterator", "audio/dsp/number_util.cc: CrossProductRange::CrossProductIterator"]}
{"id": "C08", "title": "Rational approximation respects its denominator bound and is a best approximation", "statement": "RationalApproximation(value, max_denominator) returns a fraction in lowest terms with 1 <= denominator <= max_denominator whose distance to value is minimal among all fractions with denominator at most max_denominator and a numerator that fits in an int.", "quantifier": "every rational value and every max_denominator >= 1", "why_tests_cant": "best approximation is a statement about all competing fractions for every input", "anchors": ["audio/dsp/number_util.h: RationalApproximation", "audio/dsp/number_util.cc: RationalApproximation", "audio/dsp/portable/number_util.c: RationalApproximation"]}
{"id": "C09", "title": "Byte serialisation round-trips", "statement": "For every width (16, 24/32, 64 bit) and both byte orders, reading back what was written returns the original value, the byte layout is the little-/big-endian one, and signed values survive.", "quantifier": "every integer of the width", "why_tests_cant": "2^64 values", "anchors": ["audio/dsp/portable/serialize.h: LittleEndianReadU16.. BigEndianWriteU64"]}
{"id": "C10", "title": "WAV files written are read back unchanged", "statement": "For every 16-bit sample sequence, channel count and sample rate accepted by WriteWavFile, reading the produced bytes with the WAV reader returns the same sample rate, number of channels and samples.", "quantifier": "every sample list whose length is a multiple of the channel count, every channel count and rate that the writer accepts", "why_tests_cant": "round trip over all inputs, across header variants (2 channels versus more)", "anchors": ["audio/dsp/portable/write_wav_file_generic.c: WriteWavHeaderGeneric, WriteWavSamplesGeneric", "audio/dsp/portable/write_wav_file.c: WriteWavFile", "audio/dsp/portable/read_wav_file_generic.c: ReadWavHeaderGeneric, Read16BitWavSamplesGeneric"]}
{"id": "C11", "title": "WAV reader is chunk invariant and never over-delivers", "statement": "Reading samples in any sequence of request sizes yields the same concatenation as reading them at once; each call returns at most the requested number, remaining_samples decreases by the number returned, and truncated files end with a short read rather than garbage.", "quantifier": "every byte string, every sequence of request sizes, every supported format", "why_tests_cant": "depends on all file contents and all read schedules", "anchors": ["audio/dsp/portable/read_wav_file_generic.c: Read16BitWavSamplesGeneric, ReadWavSamplesGeneric", "audio/dsp/portable/read_wav_file.c"]}
{"id": "C12", "title": "WAV reader ignores unknown chunks", "statement": "Inserting unknown RIFF chunks between the fmt and data chunks does not change what is read (RIFF requires odd-sized chunks to be padded).", "quantifier": "every unknown chunk identifier, size and content, any number of them", "why_tests_cant": "files in the wild contain arbitrary extra chunks", "anchors": ["audio/dsp/portable/read_wav_file_generic.c: ReadWavHeaderGeneric"]}
{"id": "C13", "title": "Reported sample count is a whole number of frames", "statement": "After a successful header read, remaining_samples is a multiple of num_channels, as read_wav_info.h documents.", "quantifier": "every byte string accepted as a WAV header", "why_tests_cant": "adversarial or truncated headers", "anchors": ["audio/dsp/portable/read_wav_info.h: ReadWavInfo", "audio/dsp/portable/read_wav_file_generic.c: ReadWavHeaderGeneric"]}
{"id": "C14", "title": "WriteWavFile reports success only if the data was written", "statement": "If any write of the header or sample data fails, WriteWavFile returns 0.", "quantifier": "every point at which the underlying stream may fail", "why_tests_cant": "needs fault injection at every byte", "anchors": ["audio/dsp/portable/write_wav_file.c: WriteWavFile", "audio/dsp/portable/write_wav_file_generic.c"]}
{"id": "C15", "title": "Rational-factor resampler output does not depend on chunking", "statement": "Splitting an input into blocks in any way and concatenating the outputs of ProcessSamples gives the same samples, bit for bit, as processing the whole input in one call; Reset returns to the initial behaviour.", "quantifier": "every resampling factor and kernel, every input and every way to split it", "why_tests_cant": "all splits of all inputs", "anchors": ["audio/dsp/portable/rational_factor_resampler.c: RationalFactorResamplerProcessSamples, RationalFactorResamplerReset", "audio/dsp/resampler_rational_factor.h", "audio/dsp/resampler_q.h: QResampler::ProcessSamples"]}
{"id": "C16", "title": "Resampler computes the polyphase interpolation formula", "statement": "Output sample m equals the sum over taps of h_p[k] x[q-k] where m*factor_numerator/factor_denominator = q + p/factor_denominator, with x zero before the start.", "quantifier": "every output index, every input, every rational factor and filter", "why_tests_cant": "the formula has to hold for each output position and phase", "anchors": ["audio/dsp/portable/rational_factor_resampler.c", "audio/dsp/resampler_q.h: QResampler::ProcessSamples"]}
{"id": "C17", "title": "Resampler output counts are predictable", "statement": "The number of output samples of a call equals NextNumOutputFrames (exact prediction) and never exceeds MaxOutputFrames; the internal delayed input stays shorter than the number of taps and the phase stays below the denominator.", "quantifier": "every state reachable by any sequence of calls and every next block size", "why_tests_cant": "buffer-size prediction must hold after every history", "anchors": ["audio/dsp/portable/rational_factor_resampler.c: RationalFactorResamplerNextOutputSize", "audio/dsp/resampler_q.h: NextNumOutputFrames, MaxOutputFrames, NextNumInputFramesToProduce"]}
{"id": "C18", "title": "BatchTopN returns the N best of everything pushed", "statement": "After any interleaving of pushes and queries, GetTopElements returns the min(N, pushed) largest elements since the last reset, sorted, regardless of when the internal partial sorts happened.", "quantifier": "every N >= 1, every push/query/reset history, any strict weak order", "why_tests_cant": "amortised batching means correctness depends on history", "anchors": ["audio/dsp/batch_top_n.h: BatchTopN"]}
{"id": "C19", "title": "Streaming FIR filters compute convolution for every block structure", "statement": "FIRFilter, TwoTapFirFilter and FirstDifference produce the causal convolution of input and kernel with zero initial state, independent of how the input is split into blocks.", "quantifier": "every kernel, input, split into blocks, channel count", "why_tests_cant": "overlap state handling depends on block sizes relative to kernel length", "anchors": ["audio/linear_filters/fir_filter.h", "audio/linear_filters/fir_filter.cc", "audio/linear_filters/two_tap_fir_filter.h"]}
{"id": "C20", "title": "Factor-two decimator keeps exactly the even samples", "statement": "The concatenation of outputs is the even-indexed samples of the concatenated input for every split, including blocks of size zero and one.", "quantifier": "every input and every split", "why_tests_cant": "parity state depends on history", "anchors": ["audio/linear_filters/filterbanks/factor_two_decimator.h: FactorTwoDecimator"]}
{"id": "C21", "title": "Biquad filter satisfies its difference equation, for any chunking", "statement": "The output of BiquadFilter satisfies a0 y[n] = b0 x[n]+b1 x[n-1]+b2 x[n-2]-a1 y[n-1]-a2 y[n-2] with zero history after Reset; results do not depend on block boundaries; a cascade is the composition of its stages.", "quantifier": "every coefficient set with a0 != 0, every input and split", "why_tests_cant": "for all inputs and coefficient values", "anchors": ["audio/linear_filters/biquad_filter.h", "audio/linear_filters/biquad_filter-inl.h: BiquadFilter::ProcessSample, ProcessBlock, BiquadFilterCascade"]}
{"id": "C22", "title": "Steady-state initialisation yields the DC steady state", "statement": "After SetSteadyStateCondition(v), a constant input v produces the constant output v*(b0+b1+b2)/(a0+a1+a2) from the first sample on.", "quantifier": "every v and every coefficient set without a pole at DC", "why_tests_cant": "for all values, forever", "anchors": ["audio/linear_filters/biquad_filter-inl.h: SetSteadyStateCondition"]}
{"id": "C23", "title": "Appending and simplifying biquads preserves the transfer function", "statement": "AppendBiquad (which simplifies the cascade) leaves the transfer function of the cascade equal to the product of the stage transfer functions.", "quantifier": "every list of biquads and every evaluation point", "why_tests_cant": "algebraic identity over all coefficients; tolerance-based simplification only fails in corners", "anchors": ["audio/linear_filters/biquad_filter_coefficients.cc: BiquadFilterCascadeCoefficients::AppendBiquad, Simplify"]}
{"id": "C24", "title": "IsStable decides stability exactly", "statement": "BiquadFilterCoefficients::IsStable returns true exactly when all poles of the filter are strictly inside the unit circle.", "quantifier": "all real coefficients", "why_tests_cant": "boundary cases of real and complex poles", "anchors": ["audio/linear_filters/biquad_filter_coefficients.cc: BiquadFilterCoefficients::IsStable"]}
{"id": "C25", "title": "Ladder filter does not gain energy even with time-varying coefficients", "statement": "For every sequence of reflection coefficients with magnitude at most 1 (arbitrary change from sample to sample) the sum of squared state values grows by at most the squared input per sample, so the state stays bounded.", "quantifier": "every input, every sequence of coefficients, every order", "why_tests_cant": "stability under arbitrary coefficient trajectories", "anchors": ["audio/linear_filters/ladder_filter.h", "audio/linear_filters/ladder_filter-inl.h: LadderFilter::ProcessSample"]}
{"id": "C26", "title": "Ladder filter smoothing ends at the requested filter", "statement": "After ChangeCoeffs the filter, once smoothing is over, uses exactly the requested coefficients.", "quantifier": "every starting filter, target filter and input", "why_tests_cant": "must hold at the end of every smoothing episode", "anchors": ["audio/linear_filters/ladder_filter-inl.h: ChangeCoeffs, SmoothCoefficients", "audio/linear_filters/ladder_filter.h"]}
{"id": "C27", "title": "Filter designs are stable and have the documented gains", "statement": "Lowpass, highpass, bandpass, bandstop, shelf, peak and allpass designs are stable for all valid parameters and have the documented gains at DC, Nyquist and the center/corner frequency; allpass filters have unit magnitude at every frequency; symmetric peak filters with gain g and 1/g are inverses.", "quantifier": "all valid real parameters", "why_tests_cant": "continuum of parameters", "anchors": ["audio/linear_filters/biquad_filter_design.cc", "audio/linear_filters/biquad_filter_design.h", "audio/linear_filters/discretization.cc: BilinearTransform"]}
{"id": "C28", "title": "Parametric equaliser: neutral settings leave the signal unchanged, stage structure is stable", "statement": "After ClearAllGains the equaliser's transfer function is 1 at every frequency; the coefficient cascade always has one stage per configured stage ('the order of the filter is always the same'), and setting gains from a magnitude response works whatever stages are enabled.", "quantifier": "every equaliser configuration", "why_tests_cant": "combinatorially many configurations", "anchors": ["audio/linear_filters/parametric_equalizer.cc", "audio/linear_filters/parametric_equalizer.h", "audio/linear_filters/equalizer_filter_params.h"]}
{"id": "C29", "title": "Static dynamic-range curves equal the documented formulas", "statement": "The branch-free compressor, limiter and expander curves equal the documented piecewise formulas for every input level; the limiter never exceeds its threshold; curves are monotone and continuous across the knee; the compressor never amplifies above threshold.", "quantifier": "every input level, threshold, knee width >= 0 and ratio >= 1", "why_tests_cant": "continuum of inputs, including the knee boundaries", "anchors": ["audio/dsp/hifi/dynamic_range_control_functions.h: OutputLevelCompressor, OutputLevelLimiter, OutputLevelExpander", "audio/dsp/hifi/dynamic_range_control_functions.cc"]}
{"id": "C30", "title": "Two-way compressor follows the documented five-region curve", "statement": "With zero knee widths OutputLevelTwoWayCompressor is the continuous piecewise-linear curve with slopes 1/hard, 1/soft, 1, 1/upward, expander in the documented regions.", "quantifier": "every input and every parameter set accepted by the validity check", "why_tests_cant": "composition of four curves with derived thresholds", "anchors": ["audio/dsp/hifi/dynamic_range_control_functions.cc: OutputLevelTwoWayCompressor, VerifyTwoWayCompressorParams"]}
{"id": "C31", "title": "Dynamic range controller: Reset and parameter changes", "statement": "Reset returns the controller to its freshly initialised behaviour with the current parameters; a parameter change crossfades from old to new gain over the next block; without parameter changes block size has no effect on the output.", "quantifier": "every sequence of Init, Set, Process and Reset calls", "why_tests_cant": "history dependence", "anchors": ["audio/dsp/hifi/dynamic_range_control.h", "audio/dsp/hifi/dynamic_range_control.cc: Reset, ComputeGainSignalFromDetection"]}
{"id": "C32", "title": "Attack/release envelope stays within the range of the rectified input", "statement": "With coefficients in [0,1] the envelope output is non-negative and never exceeds the maximum absolute input seen so far, and does not depend on chunking.", "quantifier": "every input sequence and coefficient pair", "why_tests_cant": "invariant over all histories", "anchors": ["audio/dsp/attack_release_envelope.h", "audio/dsp/attack_release_envelope.cc"]}
{"id": "C33", "title": "Teager energy filter computes the operator across block boundaries", "statement": "Output n equals (x[n-1]^2 - x[n-2] x[n]) * normalisation with zero history, for any chunking; for a sinusoid of amplitude A at the center frequency the output is the constant A^2.", "quantifier": "every input and split; every amplitude, phase and frequency", "why_tests_cant": "state across blocks; continuum of sinusoids", "anchors": ["audio/dsp/teager_energy_filter.h"]}
{"id": "C34", "title": "Spectrogram frames do not depend on chunking", "statement": "Feeding samples in arbitrary pieces yields the same frames as feeding all at once: frame i is the transform of the window starting at i*step, also when step exceeds the window length.", "quantifier": "every window length, step and split of the input", "why_tests_cant": "queue bookkeeping depends on the history", "anchors": ["audio/dsp/spectrogram/spectrogram.cc: Spectrogram::ComputeSpectrogram, GetNextWindowOfSamples", "audio/dsp/spectrogram/spectrogram.h"]}
{"id": "C35", "title": "Inverse spectrogram overlap-adds and reconstructs", "statement": "Processing frames in any split yields the overlap-add of the synthesised frames at multiples of the step; with the generated synthesis window and an exact transform pair the analysis/synthesis chain reproduces the signal; Flush returns the tail and leaves the object as newly initialised.", "quantifier": "every frame sequence and split, every window/step with nonzero coverage", "why_tests_cant": "history and all signals", "anchors": ["audio/dsp/spectrogram/inverse_spectrogram.cc: Process, Flush, GenerateSynthesisWindow"]}
{"id": "C36", "title": "Spectral processor delivers overlap-added blocks with constant latency for all chunk sizes", "statement": "For every sequence of allowed chunk lengths the processor never fails an internal check and its output is the overlap-add of the processed blocks delayed by the documented latency.", "quantifier": "every block length, hop, set of chunk sizes and input", "why_tests_cant": "ring-buffer phase depends on the whole history of chunk sizes", "anchors": ["audio/dsp/spectral_processor.cc", "audio/dsp/spectral_processor.h: SpectralProcessor"]}
{"id": "C37", "title": "Decibel conversions are mutually inverse", "statement": "AmplitudeRatioToDecibels/DecibelsToAmplitudeRatio and PowerRatioToDecibels/DecibelsToPowerRatio are inverse on their domains, monotone, and turn products into sums.", "quantifier": "all positive ratios and all real decibel values", "why_tests_cant": "continuum", "anchors": ["audio/dsp/decibels.h"]}
{"id": "C38", "title": "Fast log2, exp2, pow meet their documented accuracy everywhere", "statement": "FastLog2 is within 0.003 of log2 for every positive normal float; FastExp2 is within 0.3% of 2^x for every float with |x| <= 126; FastPow is within its bound where documented.", "quantifier": "every float in the documented range (about 2^31 values)", "why_tests_cant": "exhaustive float testing is rarely done; the bound is a universal statement", "anchors": ["audio/dsp/portable/fast_fun.h: FastLog2, FastExp2, FastPow, FastTanh", "audio/dsp/portable/fast_fun.c: kFastFunLog2Table, kFastFunExp2Table"]}
{"id": "C39", "title": "Phasor rotator generates cos and sin", "statement": "In exact arithmetic after n steps the oscillator outputs cos(n theta), sin(n theta), renormalisation included.", "quantifier": "every frequency, sample rate and number of steps", "why_tests_cant": "unbounded number of steps", "anchors": ["audio/dsp/portable/phasor_rotator.h: PhasorRotatorNext", "audio/dsp/portable/phasor_rotator.c: PhasorRotatorInit, PhasorRotatorRenormalize"]}
{"id": "C40", "title": "Auto gain control warm-up and smoothing follow the documented average", "statement": "During warm-up the power estimate is (1 + sum of power)/(1+n); afterwards it is the exponential average; it stays between the extremes of 1 and the input powers; with strength 0 the gain is one.", "quantifier": "every power sequence and parameter set accepted by Init", "why_tests_cant": "history invariant", "anchors": ["audio/dsp/portable/auto_gain_control.c", "audio/dsp/portable/auto_gain_control.h: AutoGainControlProcessSample, AutoGainControlGetGain"]}
{"id": "C41", "title": "Complex helpers are algebraically correct", "statement": "Division inverts multiplication, Sqrt(z)^2 = z with non-negative real part, Abs is the modulus, Exp/trig functions satisfy their defining identities.", "quantifier": "all complex numbers (excluding division by zero)", "why_tests_cant": "continuum with branch cuts", "anchors": ["audio/dsp/portable/complex.c", "audio/dsp/portable/complex.h"]}
{"id": "C42", "title": "Nelder-Mead search is safe, terminates and never loses the best point", "statement": "For every objective function the search stops, every evaluated and stored point satisfies the bounds, GetMin() never increases, equals the smallest objective value evaluated during the search, is attained at GetArgMin(), and the number of evaluations is at most max_evaluations plus a bounded overshoot; a standard_deviation_tolerance <= 0 is ignored.", "quantifier": "every objective function, simplex, dimension, bounds and limits", "why_tests_cant": "universally quantified over functions", "anchors": ["audio/dsp/nelder_mead_searcher.h: NelderMeadSearcher"]}
{"id": "C43", "title": "Mel filterbank partitions spectral energy and stays in bounds", "statement": "Each used FFT bin is split between at most two neighbouring channels with weights in [0,1] that add to one; all array accesses of Initialize, Compute and EstimateInverse stay in bounds.", "quantifier": "every parameter set accepted by Initialize and every input", "why_tests_cant": "bin/channel geometry varies continuously with parameters", "anchors": ["audio/dsp/mfcc/mel_filterbank.cc: Initialize, Compute, EstimateInverse"]}
{"id": "C44", "title": "DCT computes the documented transform; failed initialisation is safe", "statement": "Compute returns sum_j sqrt(2/N) cos(pi i (j+1/2)/N) x_j with input truncated or zero-extended to the configured length, is linear, and after a failed Initialize no out-of-bounds access is possible.", "quantifier": "every length, coefficient count and input; every sequence of Initialize calls", "why_tests_cant": "call histories, all lengths", "anchors": ["audio/dsp/mfcc/dct.cc: Dct::Initialize, Dct::Compute", "audio/dsp/mfcc/mfcc.cc"]}
{"id": "C45", "title": "Brickwall spectrum filters keep exactly the bins in the closed passband", "statement": "HardBandpassSpectrum copies bin k iff low <= k*bin_width <= high and zeroes the others, in place or not; the lowpass and highpass variants accept every band edge their documentation allows.", "quantifier": "every spectrum, band edges and bin width", "why_tests_cant": "rounding of edges to bins", "anchors": ["audio/dsp/kiss_fft_util.cc: HardBandpassSpectrum, HardLowpassSpectrum, HardHighpassSpectrum"]}
{"id": "C46", "title": "Window functions: normalisation, support, symmetry and overlap", "statement": "Every window is 1 at its center, even, within [0,1] and the sampled symmetric window is symmetric; periodic Hann windows of even length sum to one at 50% overlap; changing the radius does not change sampled windows and results do not depend on earlier evaluations.", "quantifier": "every x, radius, sample count and call order", "why_tests_cant": "continuum and call histories", "anchors": ["audio/dsp/window_functions.cc", "audio/dsp/window_functions.h"]}
{"id": "C47", "title": "Bluestein FFT and FFT-based convolution compute exact DFT and linear convolution", "statement": "In exact arithmetic the Bluestein transform equals the DFT of every size (and its inverse the inverse DFT), Hermitian reflection reconstructs the full spectrum, and LinearConvolution equals direct linear convolution.", "quantifier": "every size and every input", "why_tests_cant": "every transform size", "anchors": ["audio/dsp/kiss_fft.cc: BluesteinComplexFFTTransformerImpl, ReflectSpectrum, ComplexBackendRealFFTTransformerImpl", "audio/dsp/kiss_fft_util.cc: LinearConvolution"]}
{"id": "C48", "title": "Background level detector keeps its estimate within the input range and holds during transients", "statement": "The background estimate is non-negative, never exceeds the largest smoothed level seen, does not change while a transient is active, resumes after the rejection time once the level is no longer transient, and channels do not influence each other; Init validates the parameters it is given.", "quantifier": "every envelope sequence and parameter set", "why_tests_cant": "state machine over unbounded input", "anchors": ["audio/dsp/loudness/background_level_detector.cc: Init, ProcessBlock"]}
{"id": "C49", "title": "Linkwitz-Riley crossover outputs sum to an allpass", "statement": "For every even order the lowpass and highpass outputs of the Linkwitz-Riley crossover add up to a signal with flat magnitude response at every frequency.", "quantifier": "every crossover frequency, sample rate and evaluation frequency", "why_tests_cant": "continuum", "anchors": ["audio/linear_filters/crossover.cc: CrossoverFilterDesign"]}
{"id": "C50", "title": "Portable Butterworth designs are stable with unit passband gain", "statement": "The portable second-order Butterworth lowpass/highpass designs have unit gain at DC/Nyquist, gain 1/sqrt(2) at the corner and are stable, for every valid corner frequency; invalid arguments are rejected.", "quantifier": "every real corner frequency and sample rate", "why_tests_cant": "continuum of parameters", "anchors": ["audio/dsp/portable/butterworth.c: DesignButterworthOrder2Lowpass, DesignButterworthOrder2Highpass, DesignButterworthOrder2Bandpass"]}
{"id": "C51", "title": "A WAV header is accepted only if it is complete", "statement": "ReadWavHeader returns 1 only when all bytes of the header up to and including the size of the data chunk were present in the input; a file cut anywhere in the header is rejected.", "quantifier": "every byte string and every truncation point", "why_tests_cant": "every cut position of every valid file, and the content of uninitialised memory", "anchors": ["audio/dsp/portable/read_wav_file_generic.c: ReadWavHeaderGeneric, ReadWithErrorCheck"]}
{"id": "C52", "title": "Header reading is robust on arbitrary bytes", "statement": "ReadWavHeader terminates without undefined behaviour on every byte string. Success gives between 1 and 65535 channels, a supported format with matching bit depth and alignment and fewer than 2^32 samples; failure reports zero channels, rate and samples, so that asking for samples afterwards delivers none.", "quantifier": "every byte string, with and without a seek function and a custom chunk handler", "why_tests_cant": "arbitrary hostile input", "anchors": ["audio/dsp/portable/read_wav_file_generic.c: ReadWavHeaderGeneric, ReadWavFmtChunk, ReadWavFactChunk, ReadBytesAsSamples"]}
{"id": "C53", "title": "Every accepted resampler configuration can process input", "statement": "If RationalFactorResamplerMake (or the QResampler constructor) accepts its arguments, then processing any blocks of samples never aborts and never touches memory outside its buffers.", "quantifier": "every positive rate pair and option set that is accepted, every input", "why_tests_cant": "the failure needs a small filter radius combined with a large factor and a particular block length", "anchors": ["audio/dsp/portable/rational_factor_resampler.c: RationalFactorResamplerMake, RationalFactorResamplerProcessSamples", "audio/dsp/resampler_q.h: QResampler"]}
{"id": "C54", "title": "A ladder filter made from a transfer function realises it", "statement": "After InitFromTransferFunction(b, a) the output on every channel satisfies the difference equation of b/a with the input, starting from rest.", "quantifier": "every order, every transfer function whose reflection coefficients are below one in magnitude, every number of channels and input", "why_tests_cant": "an identity between two realisations for every order and every input", "anchors": ["audio/linear_filters/ladder_filter-inl.h: InitFromTransferFunction, ProcessSample", "audio/linear_filters/filter_traits.h"]}
{"id": "C55", "title": "TopNPeaks returns the N largest peaks", "statement": "TopNPeaksNonperiodic and TopNPeaksPeriodic return the positions of the N largest peaks in descending order, where a peak is strictly greater than its left neighbour and not less than its right neighbour (endpoints: greater than their only neighbour, or with wrap-around).", "quantifier": "every array, every N >= 1, every total preorder of values", "why_tests_cant": "depends on ties and on the endpoints for every array", "anchors": ["audio/dsp/batch_top_n.h: TopNPeaksNonperiodic, TopNPeaksPeriodic"]}
{"id": "C56", "title": "Bessel functions I0 and I1 are accurate and monotone", "statement": "BesselI0 is even and positive, BesselI1 is odd, both increase with |x|, and the truncated series is within two units of DBL_EPSILON (relative) of the infinite series.", "quantifier": "every real x (monotonicity and accuracy for |x| < 21)", "why_tests_cant": "continuum of arguments, infinite series", "anchors": ["audio/dsp/bessel_functions.cc: BesselI0, BesselI1, BesselISeries, BesselIAsymptotic"]}
{"id": "C57", "title": "EvalFourierTransform is the Fourier integral of Eval", "statement": "For every window with a closed-form transform, EvalFourierTransform(f) equals the integral of Eval(x) cos(2 pi f x) over the support, removable singularities included; the generic implementation is the documented quadrature.", "quantifier": "every frequency, radius and shape parameter", "why_tests_cant": "an identity between an integral and a formula over a continuum", "anchors": ["audio/dsp/window_functions.cc: EvalFourierTransform", "audio/dsp/window_functions.h"]}
{"id": "C58", "title": "FFT upsampling interpolates", "statement": "Upsample(input, f) with f >= 2 returns f times as many samples, reproduces input[m] at position m*f for every input, and is exact for every periodic signal without content at or above the input Nyquist frequency.", "quantifier": "every non-empty input, every factor >= 2, every band-limited periodic signal", "why_tests_cant": "even and odd sizes and every transform backend, all phases and frequencies", "anchors": ["audio/dsp/kiss_fft_util.cc: Upsample"]}
{"id": "C59", "title": "FFT periodic resampling is exact on band-limited periodic signals", "statement": "FftPeriodicResample returns round(size*out/in) samples and, for every periodic signal below both Nyquist frequencies, exactly the signal sampled at the new rate.", "quantifier": "every size, pair of rates and band-limited periodic signal", "why_tests_cant": "every pair of sizes (even/odd, up/down)", "anchors": ["audio/dsp/kiss_fft_util.cc: FftPeriodicResample"]}
{"id": "C60", "title": "Periodic Gaussian convolution multiplies each frequency by the Gaussian transfer function", "statement": "PeriodicGaussianConvolution multiplies the k-th DFT bin by exp(-2 pi^2 sigma^2 k^2/N^2), keeps the sum of the samples, and equals the documented infinite sum.", "quantifier": "every non-empty input and sigma", "why_tests_cant": "every input and sigma; the documented sum is infinite", "anchors": ["audio/dsp/kiss_fft_util.cc: PeriodicGaussianConvolution", "audio/dsp/kiss_fft_util.h: PeriodicGaussianConvolution comment"]}
{"id": "C61", "title": "Nelder-Mead makes the published moves and reports honestly", "statement": "Starting from the simplex pushed into the bounds, MinimizeObjective changes the simplex only by the published moves (reflection, expansion, contraction of the worst vertex, or halving towards the best), a replaced vertex is replaced by a better one, a reflected point better than the second worst vertex is kept, StandardDeviation() is the standard deviation of the vertex values, and the setters reset num_evaluations() and apply the bounds as documented.", "quantifier": "every dimension, objective, history of calls and search parameters", "why_tests_cant": "which move is taken depends on every objective and simplex", "anchors": ["audio/dsp/nelder_mead_searcher.h: MinimizeObjective, GetSecondHighest, StandardDeviation, SetSimplex"]}
{"id": "C62", "title": "A filter given by poles and zeros has exactly those poles, zeros and gain", "statement": "After any sequence of AddPole, AddPolePair, AddZero, AddZeroPair and SetGain calls the filter has the poles, zeros and gain asked for, GetCoefficients() gives a biquad cascade with the transfer function gain * prod(1 - z_i/z) / prod(1 - p_i/z), and Eval(s) is gain * prod(s - z_i) / prod(s - p_i).", "quantifier": "every sequence of calls, every root and gain, every z and s", "why_tests_cant": "an identity of rational functions for every number and order of roots (lone and paired roots are grouped into stages in many ways)", "anchors": ["audio/linear_filters/filter_poles_and_zeros.h: AddPole, AddZero, SetGain, Eval", "audio/linear_filters/filter_poles_and_zeros.cc: GetCoefficients"]}
{"id": "C63", "title": "The bilinear transform of a pole-zero filter is the analog filter with the frequency axis warped", "statement": "BilinearTransform(filter, fs, match) has at every z the value of the analog filter at k (z-1)/(z+1), the same response at the match frequency, and keeps a stable filter stable.", "quantifier": "every analog filter, sample rate, match frequency and z", "why_tests_cant": "an identity over all filters and frequencies", "anchors": ["audio/linear_filters/discretization.cc: BilinearTransform", "audio/linear_filters/discretization.h"]}
{"id": "C64", "title": "Lowpass and highpass filters have the response of their prototype", "statement": "LowpassCoefficients and HighpassCoefficients of a pole-zero prototype are stable and have at each frequency the response of the analog prototype at the warped frequency ratio; corner frequencies outside (0, Nyquist) are refused.", "quantifier": "every stable prototype, sample rate, corner frequency and frequency", "why_tests_cant": "continuum of frequencies and prototypes", "anchors": ["audio/linear_filters/biquad_filter_design.h: PoleZeroFilterDesign::LowpassCoefficients, HighpassCoefficients", "audio/linear_filters/biquad_filter_design_pole_zero.cc"]}
{"id": "C65", "title": "Bandpass and bandstop filters have the response of their prototype", "statement": "BandpassCoefficients and BandstopCoefficients of a pole-zero prototype are stable, have at each frequency the response of the prototype at the frequency mapped so that the band edges go to -1 and 1, and refuse edges that are not increasing or not below Nyquist.", "quantifier": "every stable prototype, sample rate, pair of edges and frequency", "why_tests_cant": "continuum of frequencies and prototypes; real and complex roots take different paths", "anchors": ["audio/linear_filters/biquad_filter_design.h: PoleZeroFilterDesign::BandpassCoefficients, BandstopCoefficients", "audio/linear_filters/biquad_filter_design_pole_zero.cc"]}
{"id": "C66", "title": "Butterworth filters are maximally flat with half power at the edges", "statement": "Butterworth lowpass, highpass, bandpass and bandstop filters of every order are stable, have the magnitude 1/sqrt(1 + w^2n) of the warped frequency w, hence half power at the edges, monotone lowpass and highpass responses and more (less) than half power in (outside) the pass band.", "quantifier": "every order, sample rate, corner frequencies and frequency", "why_tests_cant": "continuum of frequencies, every order", "anchors": ["audio/linear_filters/biquad_filter_design.h: ButterworthFilterDesign", "audio/linear_filters/biquad_filter_design_pole_zero.cc: ButterworthFilterDesign"]}
{"id": "C67", "title": "Chebyshev filters keep the ripple they are given", "statement": "Chebyshev type 1 filters of every order and ripple are stable, stay within the ripple in the pass band, are exactly at the ripple at the edges and fall off outside; type 2 filters have unit gain at the centre of the pass band, are exactly at the attenuation at the edges and stay below it in the stop band.", "quantifier": "every order, ripple, sample rate, corner frequencies and frequency", "why_tests_cant": "equiripple behaviour holds over a continuum of frequencies for every order", "anchors": ["audio/linear_filters/biquad_filter_design.h: ChebyshevType1FilterDesign, ChebyshevType2FilterDesign", "audio/linear_filters/biquad_filter_design_pole_zero.cc"]}
{"id": "C68", "title": "WriteWavFile produces a well-formed WAV file", "statement": "The bytes written by WriteWavFile are a RIFF/WAVE file in which every chunk size and the RIFF size are right, the format chunk gives channels, rate, byte rate, block alignment and 16 bits (in the extensible form with the PCM sub-format for more than two channels), and the fact chunk counts the frames.", "quantifier": "every accepted sample list, channel count and rate", "why_tests_cant": "sizes near the 32-bit limit and all channel counts", "anchors": ["audio/dsp/portable/write_wav_file.c: WriteWavFile", "audio/dsp/portable/write_wav_file_generic.c: WriteWavHeaderGeneric"]}
{"id": "C69", "title": "FIRFilter convolves, in any chunks", "statement": "FIRFilter<C,S>::Filter returns for every sample the documented sum of products of the impulse response with the current and earlier samples, however the signal is cut into chunks; Reset makes the filter behave like a new one, and only an empty impulse response is refused.", "quantifier": "every non-empty impulse response, signal, division into chunks, and any sample arithmetic including floating point", "why_tests_cant": "tests use a few responses and chunk sizes; the claim is about every division of the stream", "anchors": ["audio/dsp/signal_vector_util.h: FIRFilter"]}
{"id": "C70", "title": "Vector statistics mean what they say", "statement": "ComputeSecondOrderStats returns the mean and the mean squared deviation, ComputeMaxMagnitude the largest absolute value, RootMeanSquareError is zero only for equal vectors, FindMaxIndexAndValue the first index of the maximum, and ZScoreNormalize yields mean zero and variance var/(floor+stddev)^2.", "quantifier": "every container of real values and every floor", "why_tests_cant": "algebraic identities over all data", "anchors": ["audio/dsp/signal_vector_util.h: ComputeSecondOrderStats, ComputeMaxMagnitude, RootMeanSquareError, FindMaxIndexAndValue, ZScoreNormalize"]}
{"id": "C71", "title": "Smoothers average exponentially, stay in range and have the requested width", "statement": "ForwardSmoothVector is the exponential average of its input and can be run in chunks, BackwardSmoothVector is its mirror image, SmootherCoefficientFromScale gives a coefficient in (0,1) for which four passes have the requested variance, SmoothVector is linear and never leaves the range of zero and the data, BlockDC removes a constant geometrically, and HermitianSmoothVector keeps the size and real end points.", "quantifier": "every signal, state, coefficient and scale", "why_tests_cant": "range and width hold for all data and scales, and the kernel is infinite", "anchors": ["audio/dsp/signal_vector_util.h: ForwardSmoothVector, BackwardSmoothVector, SmoothVector, SmootherCoefficientFromScale, HermitianSmoothVector, BlockDC, SplitComplexVector, CombineComplexVector"]}
{"id": "C72", "title": "QuadraticInterpolateMax finds the vertex", "statement": "The location returned lies in the signal and within one sample of x0, the value is the maximum over that interval of the parabola through the three samples, and samples of a parabola are reproduced exactly.", "quantifier": "every signal and index", "why_tests_cant": "holds for all real triples, including nearly flat and convex ones", "anchors": ["audio/dsp/signal_vector_util.h: QuadraticInterpolateMax"]}
{"id": "C73", "title": "Phasor vectors and circular averages", "statement": "ComputePhasorVector and ComputeSineWaveVector produce exp(i n step) and sin(2 pi f n / fs + phase); the circular averages lie in [0, period), point in the direction of the weighted sum of unit vectors, turn with the data and ignore whole periods.", "quantifier": "every step, size, list of values, weights and positive period", "why_tests_cant": "wrap-around behaviour over all reals", "anchors": ["audio/dsp/signal_vector_util.h: ComputePhasorVector, ComputeSineWaveVector, ComputeCircularAverage, ComputeWeightedCircularAverage"]}
{"id": "C74", "title": "Windowed-sinc FIR designs", "statement": "DesignFirLowpassFilter returns the documented windowed sinc, which is symmetric with zero phase for a symmetric window; the highpass is its complement to the windowed unit impulse, a bandpass is the difference of two lowpasses and degenerates to the lowpass and the highpass at 0 and at the Nyquist frequency; bad edges and even windows are refused.", "quantifier": "every band edge, sample rate and odd window", "why_tests_cant": "identities over all window sizes and real edges", "anchors": ["audio/dsp/signal_vector_util.h: DesignFirLowpassFilter, DesignFirHighpassFilter, DesignFirBandpassFilter"]}
{"id": "C75", "title": "Arithmetic sequences follow base:step:limit", "statement": "ArithmeticSequence(base, step, limit) has the documented number of elements (base + step*(size-1) <= limit + tol < base + step*size, mirrored for negative steps), which is n + 1 whenever the arguments are within 4 epsilon of values n whole steps apart; its elements are base + step*i, strictly ordered, ending on or just before the limit; iteration and CopyTo give exactly the elements in order; construction is refused exactly for a zero step or more than INT_MAX elements.", "quantifier": "every finite base, step and limit, every perturbation of the intended values, every index", "why_tests_cant": "the size is a floor of a perturbed quotient: tests cover a few decimal fractions, the claim is about all perturbed triples and every magnitude of the step", "anchors": ["audio/dsp/number_util.cc: ArithmeticSequence::ArithmeticSequence", "audio/dsp/number_util.h: ArithmeticSequence::operator[], CopyTo, Iterator"]}
{"id": "C76", "title": "The streaming loudness meter measures the K-weighted, weighted and averaged power of the signal", "statement": "StreamingLoudness1771 gives one value per frame: 10 log10 of the averaged sum over the channels of weight times squared K-weighted sample. The values do not depend on how the signal is cut into blocks, Reset restores the state after Init, ProcessVector is the same for interleaved samples, a channel with weight zero has no influence, a gain g changes every value by 20 log10 |g| dB, and for a tone the measured power approaches the weighted mean power of the K-weighted tone plus a ripple at twice the frequency attenuated by the averaging filter. Init fails exactly when the numbers of weights and channels differ, without disturbing a working meter.", "quantifier": "all parameters accepted by Init, all signals and all ways of cutting them into blocks, all tones and stable weighting filters", "why_tests_cant": "Filters have infinite memory; block boundaries, gains and frequencies cannot be enumerated.", "anchors": ["audio/dsp/loudness/streaming_loudness_1771.h: StreamingLoudness1771::ProcessBlock, ProcessVector, StreamingLoudnessParams", "audio/dsp/loudness/streaming_loudness_1771.cc: StreamingLoudness1771::Init, Reset"]}
{"id": "C77", "title": "The envelope detector follows the root mean square of the filtered signal", "statement": "EnvelopeDetector returns false before Init and is refused exactly for the documented parameters. With equal rates it gives one envelope value per sample: the root of the lowpass-smoothed squares of the prefiltered samples; with a lower envelope rate these smoothed squares go through the resampler first. Values do not depend on how the signal is cut into blocks; most_recent_output is the last value; with a cutoff of at most a quarter of the rate no value exceeds the largest filtered sample; for a constant the envelope tends to its filtered magnitude and for a tone to its root mean square plus an attenuated ripple. Reset makes the detector as it was after Init.", "quantifier": "all parameters accepted by Init, all signals and block sizes, all stable prefilters, tones and constants", "why_tests_cant": "The filters have infinite memory and the limits concern signals without end.", "anchors": ["audio/dsp/envelope_detector.cc: EnvelopeDetector::Init, Reset, ProcessBlock", "audio/dsp/envelope_detector.h: EnvelopeDetector::most_recent_output"]}
{"id": "C78", "title": "The loudness compressor applies the documented gain to the delayed signal", "statement": "Loudness1771TwoWayCompressor::Init succeeds exactly for positive times, counts and sample rate and one weight per channel. Each output frame is the input frame, delayed by the lookahead rounded to samples, times the gain that the two-way curve gives for the K-weighted, averaged power smoothed with the attack and release times. Block sizes have no influence, ratios of one leave a pure delay and a constant gain, and Reset starts a new stream. The gain keeps following the signal for ever.", "quantifier": "all accepted parameters, all signals, all ways of cutting them into blocks, all histories before Reset", "why_tests_cant": "Three stages with infinite memory and a delay line are composed; single failures (a negative averaged power, a stale delay line) show only for particular histories.", "anchors": ["audio/dsp/loudness/loudness_1771_two_way_compressor.h: Loudness1771TwoWayCompressor::ProcessBlock, ComputeGainFromInput", "audio/dsp/loudness/loudness_1771_two_way_compressor.cc: Init, Reset, VerifyParams, ComputeGainFromLoudness"]}
{"id": "C79", "title": "Perceptual weighting filters follow the published curves at every sample rate", "statement": "PerceptualLoudnessFilterPolesAndZeros gives the published A, B, C, D, RLB or K weighting with exactly the roots above the Nyquist frequency replaced by their effect at zero frequency, and the published curve itself when there are none. PerceptualLoudnessFilterCoefficients gives a stable cascade whose response at x is that analog response at 2 fs tan(pi x / fs). From 8 kHz on the gain at the reference frequency is one (within 5 % at 1 kHz for A, B, C, D and RLB; within 1 % at 500 Hz for K), and the loudness meter accepts the coefficients.", "quantifier": "all six weightings, all sample rates, all frequencies", "why_tests_cant": "The set of roots that is dropped changes at several sample rates and the number of zeros may exceed that of the poles; tests look at a few sample rates and frequencies.", "anchors": ["audio/linear_filters/perceptual_filter_design.cc: PerceptualLoudnessFilterPolesAndZeros, PerceptualLoudnessFilterCoefficients"]}
{"id": "C80", "title": "A multi-band crossover splits the signal into bands that add up", "statement": "MultiCrossoverFilter: with Linkwitz-Riley filters the magnitudes of the bands add up to one at every frequency, with Butterworth filters their powers do. At every crossover frequency the two neighbouring bands are in phase (all pairs for Linkwitz-Riley, all but the highest for Butterworth). Each channel of each band is the input channel filtered by the sections of that band, GetCoefficientsForBand reports a cascade with that response, the output does not depend on the block size and Reset restores the state after Init. Init accepts every increasing list of crossover frequencies below the Nyquist frequency.", "quantifier": "all numbers of bands and channels, all crossover orders, all frequencies, all signals and all ways to cut them into blocks", "why_tests_cant": "The all-pass corrections are found by a nested loop over already corrected bands, and acceptance depends on the phase of the filters; tests use a few fixed frequencies and check the sum approximately.", "anchors": ["audio/dsp/hifi/multi_crossover_filter.h: MultiCrossoverFilter", "audio/linear_filters/crossover.h: CrossoverFilterDesign"]}
{"id": "C81", "title": "A multi-band compressor is the sum of its separately compressed bands", "statement": "MultibandCompressor: the output is, for every sample, the sum over the bands of the band signal of the crossover filter under the documented gain of that band's own dynamic range controller, with its own lookahead. With untouched parameters the output is the plain sum of the bands. The output does not depend on the block size. Init returns the compressor to what the constructor's parameters say; Reset returns it to the state after Init. The parameter object accepts exactly two or more bands, order two or more and one frequency fewer than bands, and each setter changes only what it names.", "quantifier": "all numbers of bands and channels, all accepted parameters, all signals, all ways to cut them into blocks and all histories of calls", "why_tests_cant": "Several stateful components are composed per band and share one workspace; leaks between bands or across Init and Reset show only for particular histories.", "anchors": ["audio/dsp/hifi/multiband_compressor.h: MultibandCompressorParams, MultibandCompressor", "audio/dsp/hifi/multiband_compressor.cc: Init, Reset, ProcessBlock"]}
{"id": "C82", "title": "Zeros, poles and gain keep their transfer function through every step to biquads", "statement": "ZpkEval gives H(s). ZpkAnalogPrototypeToLowpass, Highpass, Bandpass and Bandstop give filters whose transfer function at s is that of the prototype at s/c, c/s, (s^2 + lh)/((h - l) s) and (h - l) s/(s^2 + lh); ZpkBilinearTransform gives H(2 fs (z - 1)/(z + 1)); each keeps conjugate symmetry. ZpkSort succeeds exactly for conjugate symmetric filters and arranges the roots in the documented order. ZpkToBiquads then writes ceil(n/2) biquads, never more than there is room for, whose cascade has the same transfer function, and otherwise reports failure.", "quantifier": "all filters of any degree, gain, and root multiplicities (band transformations: up to 15 poles), all complex s and z, every sorting function that the C standard allows for qsort; roots that are real or clearly not real", "why_tests_cant": "Conjugate pairs, multiplicities and branch choices of the complex root interact; tests compare a few filters numerically at a few points.", "anchors": ["audio/dsp/portable/iir_design.c: ZpkEval, ZpkBilinearTransform, ZpkAnalogPrototypeToLowpass, ZpkAnalogPrototypeToHighpass, ZpkAnalogPrototypeToBandpass, ZpkAnalogPrototypeToBandstop, ZpkSort, ZpkToBiquads"]}
{"id": "C83", "title": "The portable Butterworth and Chebyshev designs have the textbook response", "statement": "DesignButterworth*, DesignChebyshev1* and DesignChebyshev2* {Lowpass, Highpass, Bandpass, Bandstop} write ceil(order/2) (lowpass, highpass) or order (bandpass, bandstop) biquads that form a stable filter whose magnitude at every frequency is the textbook formula of the prewarped frequency: exact value at the band edges, ripple within the limits in the pass or stop band, monotone elsewhere, zeros at 0 and half the sample rate where expected. Orders below one, frequencies out of range and too little room are reported as failures, and so are orders that are too large.", "quantifier": "all orders up to 30 (15 for bands), all sample rates, all edges that are not extremely close to 0, half the sample rate or each other, type 1 ripple from 1e-6 dB, type 2 attenuation up to 80 dB, all frequencies", "why_tests_cant": "The chain of root transformations, sorting, pairing and gain is only right if every step is; tests check some frequencies of some designs.", "anchors": ["audio/dsp/portable/iir_design.c: DesignButterworthLowpass, DesignButterworthHighpass, DesignButterworthBandpass, DesignButterworthBandstop, DesignChebyshev1Lowpass, DesignChebyshev2Lowpass, ShiftFromBaseband"]}
{"id": "C84", "title": "Float samples written to a WAV string come back as their 16-bit quantisation", "statement": "WriteWavToString of float samples gives exactly the string that the 16-bit overload gives for the samples scaled by 32768, rounded towards zero and clipped to [-32768, 32767]; plus and minus infinity give the extremes, and reading the string returns these samples, the channel count and the rate.", "quantifier": "all signals of any length relative to the 512-sample blocks, all finite and infinite sample values, all channel counts and rates the format can hold; NaN samples are refuted", "why_tests_cant": "Clipping, rounding, block boundaries and non-finite values must be right for every sample at every position.", "anchors": ["audio/dsp/portable/write_wav_string.cc: WriteWavToString", "audio/dsp/portable/write_wav_string.h: WriteWavToString"]}
{"id": "C85", "title": "The peak of a biquad's frequency response is the true maximum", "statement": "FindPeakFrequencyRadiansPerSample returns the largest gain over all frequencies and the lowest frequency in [0, pi] that has it; SetPeakGain makes the largest gain the requested one and only scales the response; SetGainAtFrequency does so at one frequency.", "quantifier": "all biquad coefficients without poles on the unit circle whose slope polynomial has no nearly (but not exactly) double root; all requested gains and all frequencies", "why_tests_cant": "The maximum is over a continuum of frequencies and the closed form has many cases (degenerate quadratics, boundary maxima, ties).", "anchors": ["audio/linear_filters/biquad_filter_coefficients.cc: FindPeakFrequencyRadiansPerSample", "audio/linear_filters/biquad_filter_coefficients.h: SetGainAtFrequency, SetPeakGain", "audio/dsp/porting.cc: RealRootsForQuadratic"]}
{"id": "C86", "title": "Peak search by bisection", "statement": "FindPeakByBisection evaluates the function only inside the range, returns a point of the open range with its value, at least the value at each of the 98 grid points, and, when the function rises to a single peak and falls after it, a point within the stated accuracy of the peak. For a cascade, FindPeakFrequencyRadiansPerSample has these guarantees over (0, pi), and SetPeakGain scales the response so that the gain at that frequency is the requested one.", "quantifier": "all functions with finite values and at least one positive grid value, all ranges; all cascades of biquads without poles on the unit circle", "why_tests_cant": "The search runs on arbitrary functions; correctness for one transfer function says nothing about another.", "anchors": ["audio/linear_filters/biquad_filter_coefficients.cc: FindPeakByBisection, BiquadFilterCascadeCoefficients::FindPeakFrequencyRadiansPerSample", "audio/linear_filters/biquad_filter_coefficients.h: BiquadFilterCascadeCoefficients::SetPeakGain"]}
{"id": "C87", "title": "Poles and decay time", "statement": "GetPoles returns the two roots of the denominator. EstimateDecayTime is infinite exactly for unstable filters; otherwise t - 2 is the number of samples in which the slowest pole loses decay_db dB: the impulse response is bounded by a multiple of (n + 1) 10^(-(decay_db/20) n/(t - 2)) and, unless a zero cancels a pole, is not of smaller order.", "quantifier": "all biquad coefficients (sum of the poles exact and product within 2^-52 relative for nearly double poles), all positive decays, all sample positions", "why_tests_cant": "The claim concerns the infinite impulse response of every stable filter.", "anchors": ["audio/linear_filters/biquad_filter_coefficients.cc: GetPoles, EstimateDecayTime"]}
{"id": "C88", "title": "The auditory filterbank is designed on the ERB scale with unit peak gains", "statement": "After Init the stages have pole frequencies that start at the smaller of the highest pole frequency and the given fraction of half the sample rate, fall by step_erbs equivalent rectangular bandwidths from stage to stage and end above the minimum; each stage is the bilinear transform of a resonator with zeros half an octave above its poles at its own sample rate, which is halved exactly when allowed and a cycle has too many samples; each stage is stable; every channel has gain one at the frequency reported as its peak and at most one on a fine grid; GetFilterbankSize, GetSampleRate, PeakFrequencyHz and BandwidthHz describe the exposed channels. Invalid parameters are refused.", "quantifier": "all parameters, sample rates and numbers of microphones for which no numerator coefficient is negligible; calling Init twice, a pole at half the sample rate and a huge channel skip are refuted", "why_tests_cant": "The number of stages, their rates and gains depend on all parameters at once and each stage on the peak of all stages before it.", "anchors": ["audio/linear_filters/filterbanks/auditory_cascade_filterbank.cc: Init, ComputeFilterbankCentersAndBandwidths, DesignFilterbank, DesignFilterbankStage, CheckParameterValues, HandleChannelSelection", "audio/linear_filters/filterbanks/auditory_cascade_filterbank.h: GetFilterbankSize, GetSampleRate, PeakFrequencyHz, BandwidthHz"]}
{"id": "C89", "title": "The auditory filterbank processes signals as designed, whatever the block sizes", "statement": "ProcessBlock computes, for each microphone, the cascade of the stages' difference equations, dropping every second sample where the rate is halved, followed in each channel by the difference of successive samples. The outputs do not depend on how the input is cut into blocks, FilteredOutput returns the block of the channel's stage, and Reset restores the state after Init. A sinusoid comes out of a channel as a sinusoid of the same frequency with the channel's response, with unchanged amplitude at the reported peak frequency.", "quantifier": "all filterbanks that Init builds without negligible numerator coefficients, all inputs, all cuttings into blocks, all numbers of microphones, all frequencies; a filterbank without stages is refuted", "why_tests_cant": "Decimation makes the number of outputs of a block depend on the history; tests use a few block sizes.", "anchors": ["audio/linear_filters/filterbanks/auditory_cascade_filterbank.cc: ProcessBlock, Reset", "audio/linear_filters/filterbanks/auditory_cascade_filterbank.h: FilteredOutput"]}
{"id": "C90", "title": "Three-tap smoothing is a convolution with the chosen boundary, keeps the range and converges when repeated", "statement": "SmoothSignal of an object built for n points returns, for every call in every sequence of calls with any boundary modes, coefficients in (0, 1/3] and inputs, the convolution of the input with [s, 1-2s, s], continued circularly, by reflection about the end points, or by zeros; earlier calls have no influence. Results stay within the range of the input (and zero, for zero padding). Repeated smoothing converges to the mean, to the mean with half weights at the ends, or to zero. Other lengths, other coefficients and fewer than two points are refused.", "quantifier": "all lengths, all inputs, all coefficients, all sequences of calls and modes; the numeric example in the header comment is refuted", "why_tests_cant": "The object reuses a scratch array between calls; independence of the history and convergence are statements about all sequences of calls.", "anchors": ["audio/dsp/signal_eigen_util.h: ThreeTapSmoother"]}
{"id": "C91", "title": "Generated sines and impulses have the documented samples", "statement": "GenerateSine returns a sin(p + 2 pi f k / rate) for every k, in spite of the recursive rotation; GenerateSineEigen returns the same samples when the phase is zero; the impulse generator sets exactly the requested column of every channel to one and refuses times outside the block.", "quantifier": "all lengths, rates, frequencies, non-negative amplitudes, phases; all channel counts, block sizes, impulse times; negative amplitudes and the meaning of the phase in GenerateSineEigen are refuted", "why_tests_cant": "The recursion runs over all samples; agreement must hold for every index.", "anchors": ["audio/dsp/signal_generator.h: GenerateSine, GenerateLinearArrayBroadsideImpulse", "audio/dsp/signal_generator.cc: GenerateSineEigen"]}
{"id": "C92", "title": "The elliptic functions are accurate, inverse to each other, and the same in both implementations", "statement": "EllipticK(m) is the complete elliptic integral of the first kind to a relative 2^-104 (10^-12 within 10^-12 of m = 1, and infinity at 1, where the integral diverges). EllipticF(phi, m) for real |phi| <= pi/2 is the incomplete integral to a relative 3e-13, and for complex phi with |real(phi)| < pi/2 it is the integral along the straight path from 0 to phi, to 2e-12 of the integral of the modulus. JacobiAmplitude(u, m) for real |u| <= K(m) is the amplitude whose incomplete integral is u, and so it is for imaginary u below K(1 - m). For complex phi in the strip |real(phi)| < pi/2, JacobiAmplitude(EllipticF(phi, m), m) = phi. The C++ and C versions agree wherever the C++ checks pass.", "quantifier": "all real m in [0, 1), all real phi and u in the stated ranges, all complex phi in the strip (the inverse property: outside the disc of radius 1/1000); the unrestricted use cn(u|m) = cos(phi) beyond the quarter period and the accuracy for 0 < m <= 2^-104 at large imaginary arguments are refuted", "why_tests_cant": "Convergence of the Landen iteration within ten steps and the accuracy have to hold for every parameter; tests compare a few tabulated values.", "anchors": ["audio/dsp/elliptic_functions.cc: EllipticK, EllipticF, JacobiAmplitude", "audio/dsp/portable/elliptic_fun.c: EllipticK, EllipticF, JacobiAmplitude"]}
{"id": "C93", "title": "Fitting the parametric equaliser minimises the error it says it minimises and stays within its constraints", "statement": "ParametricEqualizerGainMatchMagnitude changes nothing but the gains; each of its passes multiplies the gains by the unique minimiser of the regularised least squares problem whose columns are the decibel responses of the stages, it starts from 6 dB and stops early only when no gain changed by the threshold. The result does not depend on the gains found in the equaliser, fitting again changes nothing, and a flat target gives zero gains and a transparent equaliser. FitParametricEqualizer keeps the types of the stages, leaves frequencies and quality factors within the given ranges and a filter that can be designed, returns the root mean square error of that filter in decibels, and never ends with a larger error than the starting guess moved into the ranges. It returns if every setting in the ranges can be fitted.", "quantifier": "all equalisers, frequencies, targets, sample rates, settings and every solver of positive definite systems; uninitialised simplex contents; that the default ranges can be searched at every sample rate is refuted", "why_tests_cant": "The search is guided by the data, so the evaluated points cannot be enumerated; a test fits a few responses and looks at the error.", "anchors": ["audio/linear_filters/parametric_equalizer.cc: ParametricEqualizerGainMatchMagnitude, FitParametricEqualizer, ParametricEqualizerGainMagnitudeAtFrequencies", "audio/linear_filters/parametric_equalizer.h: NelderMeadFitParams, ConvergenceParams"]}
{"id": "C94", "title": "Elliptic filters have the structure, gain and zeros they promise, in both implementations", "statement": "Every prototype the elliptic design returns has as many poles as the order, conjugate pairs of roots, zeros on the imaginary axis away from 0, a positive gain, and at frequency 0 the gain 1 (odd order) or the passband ripple below 1 (even order). Its zeros lie beyond the cutoff. Its zeros and poles are the values of the elliptic functions that the theory of elliptic filters prescribes for the order and the two ripples. Its poles are in the open left half plane, and the lowpass, highpass, bandpass and bandstop filters made from it are stable, with the response of the prototype at the warped frequency. The C and C++ versions return the same roots and gain, and one returns exactly when the other does. The first-order design is the Chebyshev design of the same ripple. Orders below one and, in C++, ripples that are not positive are refused; ripples that are not in order are refused.", "quantifier": "all orders and ripples for the structure, the gain, the agreement and the refusals; zeros up to order 9 and for ripples at least a factor two apart; stability for order 1 (ripple up to 50 dB), order 2 (ripples 0.1 to 3 dB, 20 to 100 dB) and orders 3 to 10 (ripples 1 to 3 dB, 20 to 100 dB), every corner frequency, band filters of even order; positions of the roots for orders 2 to 10 (ripples 1 to 3 dB, 20 to 100 dB); the check of the order of the ripples and of large orders is refuted", "why_tests_cant": "The roots come from a degree equation solved with truncated Landen sequences; tests compare a few designs with tabulated coefficients.", "anchors": ["audio/dsp/portable/iir_design.c: EllipticAnalogPrototype, SolveEllipticDegreeEquation, DesignEllipticLowpass, DesignEllipticHighpass, DesignEllipticBandpass, DesignEllipticBandstop", "audio/linear_filters/biquad_filter_design_pole_zero.cc: EllipticFilterDesign::GetAnalogPrototype"]}
{"id": "C95", "title": "The level meter reports the documented levels of the signal it is given, however it is cut into blocks", "statement": "After Init with valid parameters, for every sequence of blocks, the instantaneous level is the level in decibels of the perceptually weighted signal, squared, smoothed and resampled to the envelope rate, and the background level follows it and its slowly smoothed version by the documented rules. Other cuts into blocks give the same levels and the same later behaviour; Reset makes later results those of a fresh detector. No level is below -240 dB, silence gives exactly -240 dB, the background level never exceeds the largest instantaneous level, and it settles to the limits of a steady level. Changing the background parameters does not affect the instantaneous level. Init accepts all valid parameters; before Init ProcessBlock returns false. MostRecentBackgroundLevelEstimate is the last of the levels of GetBackgroundLevelEstimate. A new slow cutoff takes effect also if Reset follows.", "quantifier": "all weightings, parameters, channel counts, sample rates, sequences of blocks and signals, and every valid resampler; slow cutoffs below a quarter of the envelope rate; the last two sentences are refuted (one level is linear, the other in decibels; Reset drops the new cutoff)", "why_tests_cant": "The level depends on the whole history through four recursive stages; tests look at a few signals and one block size.", "anchors": ["audio/dsp/loudness/background_level_detector.cc: Init, Reset, ProcessBlock, SetSlowSmootherCutoffHz, SetBackgroundSmootherTimeConstant, SetTransientSensitivity, SetTransientRejectionTime", "audio/dsp/loudness/background_level_detector.h: GetInstantaneousLevelEstimate, GetBackgroundLevelEstimate, MostRecentBackgroundLevelEstimate"]}
