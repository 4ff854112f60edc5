# Formal model of dsptoolbox in Rocq

## 1. Trusted base

* Coq 8.16.1 kernel. No plugins, no `Unset Guard Checking`, no functors, no axioms of our own.
* Standard-library axioms. Developments over `Z`, `nat`, `Qc` and over "every commutative ring"
  are meant to be closed under the global context. Developments over the standard library's `R`
  depend on the axioms of `Coq.Reals` (`ClassicalDedekindReals.sig_forall_dec`,
  `ClassicalDedekindReals.sig_not_dec`, `FunctionalExtensionality.functional_extensionality_dep`)
  and on `Classical_Prop.classic` where the used part of `Reals` needs it.
  Every property file ends each theorem with `Print Assumptions`; section 5 lists the result.
* The hand translation from Python to Gallina. It is done function by function; each definition
  cites file and lines. What numpy/scipy primitives do (slicing, `convolve`, `lfilter`, `rfft`...)
  is stated as small Gallina definitions (also cited at the point of use) and is trusted.
* Flocq's definition of rounding is used for half precision in `M_dither.v`; Flocq adds no axioms.

### What numbers are

Python floats are modelled by exact numbers. Linear filters are written over an arbitrary
commutative ring (class `CRing`, with instances `Z`, `Qc`, `R`); so their theorems hold for every such ring
and their examples are computed by the kernel. Code which compares or needs division is modelled over `R`
or over `Q`/`Z`. Floating-point rounding, NaN and infinities are **not** modelled unless a definition
says so. Python exceptions are values: `Err e` of a `result` type.

### What is not modelled

Section 4 lists the modelled code, file by file. Everything else is not modelled, in particular:

* plotting, file and audio device I/O, random number generation;
* optimisation-based designs (`scipy.optimize`, least-squares solvers), filter design through scipy (`butter`, `cheby` ...), the
  group delay designer and phase linearizer;
* plots of beamformer maps and grids; the decompositions of `numpy.linalg` are parameters with their defining equations;
* wavelets, MFCC, chroma;
* floating-point rounding. Where a theorem depends on nan or infinity the definition says so.

`scipy.fft` is modelled by the defining sums (DFT), not by its algorithm.

## 2. Layout

All files are in `theories/`.

* `Alg.v` rings, finite sums, lists with total indexing; `Dft.v` complex numbers, roots of unity, DFT and its inverse;
  `P_conv.v`, `P_parseval.v`: algebra of convolution, energy identities.
* `Spec.v`, `Spec_block.v`, `Spec_lattice.v` small specifications (convolution, difference equation, shift ...) which
  do not mention the model. Further specifications stand at the head of the `Claims_*.v` files that use them.
* `M_*.v` the model, one file per group of source files.
* `P_*.v` proofs.
* `Claims_*.v` the property theorems with a concrete example beside each and `Print Assumptions`.

## 3. Plan per property

| id | model | proof |
|----|-------|-------|
| C01 | `FIRFilter` as a state machine: per-channel circular buffers and write indices | buffer invariant, induction over the op history, equality with the convolution of the channel's history since the last reset |
| C02 | `IIRFilter`, transposed direct form II | state components expressed by partial sums of past x and y; induction over the history |
| C03 | `StateSpaceFilter` with squeezed matrices, order 1 is an error | state after n steps as a sum of matrix powers |
| C04 | `StateVariableFilter` over R | per-sample identities by `field`; energy balance by induction over the run |
| C05 | `ExponentialAverageFilter` over R | convexity and induction |
| C06 | chain as a fold over abstract Mealy machines | exchange of loops by induction on the chain |
| C07 | `FIRFilterOverlapSave` with DFT-based product, `irfft` default length | convolution theorem for the DFT; circular = linear on the kept samples |
| C08 | `FIRUniformPartitioned` | ring buffer of spectra; convolution theorem; double sum splitting |
| C09 | `FIRUniformPartitionedMultichannel` and the rescaling in `Signal.from_time_data` | reduce to C08 per channel |
| C10 | `_lfilter_fir` | induction on the list of blocks |
| C11 | `_filter_on_signal(_ba)` with the state array and its shape test | difference equation with initial state; streaming theorem for the case that works, theorems for all others saying what happens instead |
| C12 | lattice coefficient recursions and `process_sample` | induction on the order (polynomials) and time |
| C13 | `WarpedFIR.process_sample` with the in-place buffer | invariant buffer[k] = y_k[n-1] |
| C14 | `WarpedIIR` | sigma recursion solved for every order |
| C15 | `KautzFilter` both paths | both are the same cascade of difference equations |
| C16 | `_polyphase_decomposition`, `_polyphase_reconstruction` | index arithmetic |
| C17, C18 | `_filter_and_downsample`, `_filter_and_upsample` | polyphase identities |
| C19 | `Signal.time_data` setter | invariants over all setter histories |
| C20 | `MultichannelData` operations | state machine, list laws |
| C21 | flags and cached values of `Signal` | refinement to "recompute every time"; refutation |
| C22 | `MultiBandSignal` (the shared band object is an explicit update in `collapse`) | invariant over op lists, collapse as sum; refutation on second call |
| C23 | `FilterBank` | fold laws; refutation for the summed transfer function |
| C24-C27 | `_pad_trim`, `delay`, `append_signals`, `trim_with_level_threshold` | pointwise characterisation of the output lists |
| C28, C29 | framing helpers | pointwise overlap-add sum; arithmetic |
| C30 | `_latency` | strict Cauchy-Schwarz, argmax uniqueness |
| C31, C32 | `Spectrum` | sorted list search; linear interpolation |
| C33 | `SpectrumScaling` | case analysis and `field` |
| C34, C35 | `convert_sample_representation`, 24-bit bytes | arithmetic on Z/Q |
| C36 | `_compressor`, `_get_knee_func` over R | real inequalities, induction |
| C37 | `DigitalDelay` | strong induction on the sample index |
| C38 | `get_frequency_from_musical_rhythm` | string model, case analysis |
| C39 | `_levison_durbin_recursion` with its in-place update, `_yw_ar_estimation` | induction over the order; residual energy as a quadratic form of the autocorrelation, minimality by completing the square |
| C40 | `_time_smoothing` | convexity and induction |
| C41 | `_filter_on_signal` channel selection | pointwise |
| C42 | `KautzFilter.fit_coefficients_to_ir` | the taps are convolutions with their impulse responses (uniqueness of the response to a difference equation, associativity of convolution) |
| C43 | the same and `_burg_ar_estimation` | invariant over the order: reflection coefficients below one in magnitude, reversed polynomial never larger than the polynomial on the closed disc |
| C44 | `Spectrum.get_energy` | trapezoid sum by induction; slices from C31 |
| C45 | channel operations of `Spectrum`, `_create_copy_with_new_data` | list laws; refutation for the coherence |
| C46 | `Spectrum.normalize`, `apply_gain` | interpolation is linear in the data (uniqueness of the polygon value) |
| C47 | `Signal.get_spectrum` (FFT), `_scale_spectrum`, `SpectrumScaling` | Parseval from orthogonality of the roots of unity, one-sided folding |
| C48 | `_welch` | Parseval per frame; the deviations (amplitude factor, median bias, short mono) as `_refuted` or exact law |
| C49 | `_csm_welch`, `_csm_fft`, `Signal.get_csm` | entries as sums of frame products, quadratic form as a sum of squared moduli |
| C50 | `compute_transfer_function` | misfit as a completed square; Cauchy-Schwarz follows; `_refuted` for amplitude scalings |
| C51 | `from_db`, `to_db` | inverse functions, clipping as Rmax; `_refuted` for silence |
| C52 | `_rms`, `_normalize`, `normalize`, `apply_gain`, `crest_factor` | scaling lemmas for peak and variance; streaming filters are linear in b; `_refuted` for offsets, complex signals, bands |
| C53 | `_fade`, `fade`, `time_vector_s` | entry-wise law of the two in-place fades, monotone curves; `_refuted` for short fades and the time vector |
| C54 | `activity_detector`, `_indices_above_threshold_dbfs` | masks split and merge; recursion of the level; `_refuted` by an alternating signal |
| C55 | M_biquad: the coefficient formulas of the 13 biquad types, the ba setter, freqz as the ratio of two polynomials, lfilter from rest | the response times e^(jw) is read off the cosine and sine of w; poles by the stability triangle; bounded output by factoring the denominator over the complex numbers; the Inverter type refuted |
| C56 | M_room: `_find_ir_start`, D50, C80, centre time, `descriptors` for one and several bands; the trimming index is a parameter | the search backwards from the peak is characterised by the last sample below the threshold; sums of squares split at the window; refuted by [0, 1] |
| C57 | M_shoebox: Room and ShoeboxRoom constructors, check_if_in_room, get_room_modes, analytical transfer function at one frequency, add_detailed_absorption with the caller's dictionary | field arithmetic; insertion sort is a sorted permutation; mode lists by membership and NoDup; convex combinations; refutations by witnesses |
| C58 | M_shoebox: `_generate_rir` with numpy's buffered `+=` on index arrays | the fold over cells is a sum of what survives per cell; reciprocity by an involution on the images; geometry per coordinate; refutations: two equally distant walls, an 8 x 1 x 1 room |
| C59 | `M_stft.v`: sizes, rounded overlap, framing, scaling, inverse transform of frames, both reassembly modes | frames back by the inverse DFT (`Dft.v`), overlap-add as a sum over frames, the envelope as a phase sum; separate laws for every rounding of the percentage; witnesses for units, power, zero overlap |
| C60 | `M_distances.v`: SI-SDR and SNR over extended reals | orthogonal decomposition as the specification, ratio in dB with infinities; SNR via variances |
| C61 | `M_distances.v`: selection of bins, normalisation, Simpson weights, both measures on power spectra (the spectra themselves are inputs) | weighted inner product with positive Simpson weights, Cauchy-Schwarz; exact law and witnesses for the decimal logarithm |
| C62 | `M_distances.v`: frames, windowed DFT magnitudes, weighting, clipping; band signals are inputs (the filter bank is not modelled here) | sums over extended reals; homogeneity of DFT magnitudes; case analysis of nan |
| C63 | `M_crossover.v`: construction of the bank (closed forms of the designs of orders 1, 2, 4; other orders a parameter), filtering, summing, and filtering with stored states | linearity of sections; polynomials in the delay and their kernels; allpass equations as an inductive specification; energy identities; block induction and an exact counterexample |
| C64 | `M_crossover.v`: QMF analysis and synthesis on the models of filter_and_resample (C17, C18) | decomposition of the prototype by parity, commutative and associative convolution; symmetric sums for the refuted family |
| C65 | `M_crossover.v`: complementary_fir_filter (windowed sinc a parameter) | sums of convolutions; argmax specification |
| C66 | `M_beam.v`: points, distance matrix, grids, microphone arrays with their stored attributes | case analysis of reshapes by division; argmin/max specifications; state machine refined to a specification of the history |
| C67 | `M_beam.v`: the four steering vectors | Cauchy-Schwarz over complex sums; closed forms of the responses |
| C68 | `M_beam.v`: delay-and-sum map, band selection, removal of the diagonal | quadratic forms; on the model of the Welch matrix (C49) |
| C69 | `M_beam.v`: minimum variance, functional and orthogonal maps; decompositions are parameters characterised by their equations | Lagrange-free optimality by Cauchy-Schwarz in the inner product of the matrix; Jensen; fold invariants |
| C70 | `M_beam.v`: the CLEAN-SC loop with its 20 coherence steps and stopping rule | loop invariant; exact law of the value left at the peak |
| C71 | `M_fracdelay.v`: the windowed sinc filter, fractional_delay on all channels (Bessel function a parameter) | convolution by input samples; exact integer and fractional parts; case analysis of padding and trimming |
| C72 | `M_fracdelay.v`: sources on an array, mixing with its effect on the caller's list, time-domain beamformer | on C71; induction over the sources; history of calls |
| C73 | `M_ir.v`: spectral deconvolution with padding, regularisation window and automatic range | bijectivity of the DFT and the forward convolution theorem (`P_dft2.v`); bounds of the window; nearest-bin monotonicity |
| C74 | `M_minphase.v`: real cepstrum, folding, response and phase, Hilbert-transform method; scipy.signal.minimum_phase a parameter | even/odd decomposition on the circle, uniqueness of causal sequences with given real part; transform bijectivity |
| C75 | M_groupdelay: polyval by Horner, group delay of a filter at one frequency, np.unwrap, np.gradient, direct method, group_delay (both methods, latency removal in the analytic one) | responses of convolutions and reversals as sums; derivative of the response; uniqueness of derivatives gives minus the phase derivative; unwrapping by induction |
| C76 | M_transforms.v: cepstrum, from_complex_cepstrum, hilbert (Signal and MultiBandSignal), stereo_mid_side, dft with _dft_backend; fft/ifft as the defining sums, assignment through the time-data setter of M_signal | inversion of the DFT, reflection of Hermitian spectra, uniqueness from the spectrum; three refutations with witnesses |
| C77 | M_transforms.v: laguerre, warp (start shift through find_ir_start1 of M_room, cut, _warp_time_series), _get_warping_factor (float, string, other), warp_filter on zeros/poles/gain | P_warping.v: first-order recursions commute, energy balance of an allpass section, induction over the chain; Claims_warping.v: chain of C13, group delay law of C75, products over roots with the identity (1 - z psi)(1 - lambda w) = (1 + lambda z)(1 - z' w) |
| C78 | M_mel.v: _hz2mel, _mel2hz, mel_filterbank, one frame of log_mel_spectrogram and chroma_stft, _pitch2frequency, _frequency_weightning | monotone nearest-bin search, telescoping sum of triangle halves, pitch number as a logarithm, exchange of sums; 1000 Hz = 1000 mel by exact integer powers |
| C79 | M_generators.v: dirac, _impulse, the time_data setter of M_signal.v | specification of the setter; single-term sum for the spectrum |
| C80 | M_generators.v: chirp (range, padding, three types), _sync_log_chirp, the common level/fade/pad steps | derivatives of the phase, floor/round characterisation, uniqueness of a primitive |
| C81 | M_generators.v: oscillator with its while loops (with fuel that is proved sufficient) | loop invariant, reindexing of sums over odd numbers, periodicity of sine |
| C82 | M_generators.v: noise with the random draws as arguments | DFT of the inverse real DFT, nearest-bin search and its monotonicity |
| C83 | M_irwindow.v: window_ir with _window_this_ir_tukey (both designs), window_ir_tukey, calculate_tukey_like_window of M_ir.v, the time_data setter and set_window | case analysis on peak position and lengths against a position-indexed view of the channel |
| C84 | M_irwindow.v: window_centered_ir, _window_this_ir with flipping and broadcasting | one lemma for the unflipped core, symmetry of the window for the flipped one |
| C85 | chirp rate, harmonic times, positions with truncation towards zero, np.roll, Python slices | sweep law by a vanishing derivative; positions within half a sample, bounds by induction over the orders; exact failure for early harmonics |
| C86 | coefficient setter with trailing zeros, is_iir, taps, both conversions, double assignment of the samples | identities on the setter (P_signal), difference equation for filtering, padding lemmas; exact laws of the refuted cases |
| C87 | average_irs with both modes, the normalisation and the assignment of the result (M_average.v); latencies are arguments | delay law of C71 and mean of bounded samples; unwrapped phases are phases modulo whole turns, DFT of the inverse transform with real end bins; refutations by an impulse seen through a longer transform and by constant channels |
| C88 | window_frequency_dependent with the backend that sums one bin (M_fdw.v) | exponent of the code is the gaussian of the specification (ln, sqrt, exp over R); rounding characterised as nearest even; delay by splitting sums; bound by 1 - exp e <= -e |
| C89 | CalibrationData with its update flag and cached factors (M_calib.v) | gain law over R through std and decibel lemmas of C52; histories by a simulation between the flag machine and a view of present and last used data |
| C90 | trim_with_time_selection (M_timesel.v) | floor characterised by inequalities, window as an interval of sample numbers, uniqueness of intervals, setter law of C19 |
| C91 | `log_frequency_vector`, `fractional_octave_frequencies` (nominal tables, IEC indices, exact centres, cutoffs), `erb_frequencies` over R | Positions by monotone logarithms; IEC indices by integer comparison of 20th powers; gap by 10^3 < 2^10; refutations by exact witnesses for every number of bands |
| C92 | `_wrap_phase` per value, `_get_next_power_2`, `log_mean` of one vector | Uniqueness of floor remainders; log2 characterisations; polygon monotone and convexity of exp for the places |
| C93 | Filter object with optional zpk/sos/ba attributes, constructor, setters, `order`, `is_iir`, transfer function, filtering from rest, `get_coefficients`, `merge_filters`; scipy conversions are parameters | Normal form of the object after any history; response of trimmed and divided coefficients; associativity of convolution; concatenation of sections is composition |
| C94 | Blocks of mean squares of the filtered channels (framing and section filter of earlier files), weights, both gates, nan as None, and the caller's signal after the constraint is switched | Energies as spec sums; filters of lists, averages over the kept blocks; homogeneity and causality of the section filter |
| C95 | set_parameters, the four curves, mix loop, post gain, peak restoring on one channel over R | curve spec on the normalised sample; algebra of the peak; refutations by exact laws |
| C96 | LFO waveforms over R with trigonometric functions of the standard library; nan as None; tremolo and its setter | spec in turns of phase; periodicity; invariant by induction over the calls |
| C97 | setter in the order of its assignments; delays in samples; padded reads with negative indices; peak restoring | spec: zero extension of the signal; law for all voices; refutations by exact laws and witnesses |
| C98 | fit, filter_signal, the real-time filters as columns and the calls on them, with the least-squares solution as a parameter | batch: sum over taps plus diff_eq responses; streaming: simulation invariant per sub-filter over all call sequences; refutations by exact tap positions and unchanged real-time state |
| C99 | monotone cubic interpolation to the logarithmic grid, odd window, edge padding, valid convolution, linear interpolation back | Fritsch-Carlson bound on the slopes, means of means, sign symmetry of the slopes for scaling, three-point witness against additivity |
| C100 | detrend_col (projection with an orthogonal basis of the monomials), detrend, detrend_bands, rms_col, envelope | orthogonal decomposition; uniqueness of the trend-free part gives linearity, idempotence, trend invariance; convolution with a boxcar; constrained scaling and start of the RMS envelope refuted |
| C101 | divide_by (division plus setter, with inf and nan), energy_normalize, limit, spectral_difference; spectral_difference_complex on a common grid with numpy's order of complex numbers | tabulated divisors, uniqueness of linear interpolation, scaling of the trapezoid rule; complex output and complex dynamic range refuted |
| C102 | `M_magplot.v`: selection, smoothing, conversion to decibels with 500 dB range, references, subtraction | independent description of the reference (top, line at 1 kHz, energy level), uniqueness of it, transfer lemma between two calls |
| C103 | `M_linphase.v`: frequency vector, phase correction, smallest delays, inverse transform, trimming, constructor of the response | inversion of the result, transform of the inverse transform, corrected phase equals a whole-sample delay, cosine sum, uniqueness |
| C104 | `M_combine.v`: loop over the growing set of channels, polarity, band exchange, gains; latencies and crossover bands are parameters | loop invariant (last impulse at the partial sum of latencies) with C71 for whole delays; mean-square and peak identities |
| C105 | `M_reverb.v`: bisection, regression, correlation, the five modes and the decay curve with its noise corrections; the stop index of the trimming is a parameter | bisection invariant, orthogonal split of the squared error (optimality, uniqueness, Cauchy-Schwarz), sign of the covariance of rising times and falling levels, telescoping tails; level law by scaling of every step |
| C106 | trim_ir, _trim_ir, __find_index_above_noise_floor (M_trim.v) | inversion of the computation against the spec; uniqueness of the analytic signal; averages and least squares; short and loud responses refuted |
| C107 | convolve_rir_on_signal on real signals over M_signal; nan as None | convolution and common factor, per-channel peak law, level independence, impulse; exact nan law; balance refuted |
| C108 | dither with the draws as arguments, rounding to half precision by Flocq's round to nearest even, filter bank as a function on signals | noise bound, factor-two bound, nearest half-precision number, shaping law; refutes epsilon bound, precision, default epsilon, finiteness |
| C109 | `reconstructing_fractional_octave_bands`: transitions between bands on the bins, squared gains, linear phase, inverse transform, window | invariant of the loop over bands (squared gains add up to 1 on bins passed so far), inverse transform of the flat sum, refutation from exact bins at 32 kHz by integer powers |
| C110 | `resample_filter` and scipy's `bilinear_zpk` on complex lists of zeros and poles | products over the lists in the complex field; both maps are bilinear transforms of one analogue filter; permutations for conjugate pairs |
| C111 | resample with scipy's resample_poly and firwin written out (M_resample.v); true_peak_level of a Signal | index arithmetic of the polyphase filter, gcd of the rates, setter specification of P_signal; zeros of the sinc |
| C112 | one channel of complex_smoothing with its backend, window prototype as a list (M_csmooth.v) | rounding bounds of the band, positivity of the interpolated window, Jensen's inequality for the power |
| C113 | paths as lists of characters, the file system as a map, _check_format_in_path, saving of pickles and signals, load_pkl_object (M_saving.v) | splitting lemmas by induction on the path, induction on the history of saves |
| C114 | interpolate_fr in its six modes with linear interpolation, one channel (`M_interpfr.v`) | measure of each mode is strictly increasing, the code interpolates a positive multiple of it; segment law of the linear interpolation on ascending grids |
| C115 | append_spectra on the Spectrum model (`M_append.v`) | the list of interpolations succeeds and its concatenation is accepted by the constructor; values on the grid from C32 |
| C116 | append_filterbanks on the FilterBank model: checks, then the filters setter with each extended list (`M_appendfb.v`) | induction over the banks with the invariant of rates; filtering by folding over the concatenated filters |
| C117 | gaussian_kernel: width, pole and sections (`M_gausskernel.v`) | closed form of the pole through s = sqrt(1 + 4 lambda); powers of the polynomials on the unit circle; exp inequalities |
| C118 | fractional_delay of the filter banks: the loops that build the coefficients (`M_thiran.v`) | coefficients as ratios of rising factorials; the sum of Chu and Vandermonde by induction on the order with the rule of Pascal; reversed polynomials on the unit circle |
| C119 | matched_biquad for peaking, lowpass, highpass and bandpass: denominator, numerators, checks; a root of a negative number is nan (`M_matched.v`); the shelving types are not modelled | squared magnitude as a linear form in the phi vector of the frequency; poles by the triangle of stability, product of exponentials for high damping; gains by algebra with the roots |

None of the properties is inexpressible; those about float rounding are not claimed.

## 4. Parts of the code and where they are modelled

| model file | code |
|---|---|
| `M_realtime.v` | classes/fir_filter_realtime.py (FIRFilter), iir_filter_realtime.py, state_space_filter.py, sv_filter.py, exponential_average_filter.py, filter_chain.py |
| `M_block.v` | classes/fir_filter_realtime.py: overlap-save and partitioned convolvers |
| `M_lattice.v`, `M_warp.v`, `M_kautz.v` | classes/lattice_ladder_filter.py, warped_filters.py, kautz_filter.py (without the pole search) |
| `M_filter.v` | classes/filter.py (filtering with state, channel selection), filterbank.py, multibandsignal.py |
| `M_biquad.v` | classes/filter_helpers.py (biquads), filter.py (ba setter, frequency response) |
| `M_signal.v`, `M_cache.v` | classes/signal.py (time data, channels, cached spectra), _multichannel_data.py, impulse_response.py (cache) |
| `M_spectrum.v`, `M_scaling.v` | classes/spectrum.py, tools.py (value at a frequency), standard/enums.py (scalings), helpers/spectrum_utilities.py |
| `M_welch.v`, `M_stft.v` | standard/_spectral_methods.py, transforms.istft |
| `M_frames.v`, `M_arrays.v` | standard/_framed_signal_representation.py, helpers/polyphase.py, helpers/other.py (padding), standard/pad_trim_methods.py, appending.py, resampling.py (polyphase) |
| `M_latency.v` | standard/latency_delay.py, helpers/latency.py |
| `M_level.v` | helpers/gain_and_level.py, standard/gain_and_level.py (without LUFS and true peak), standard/other.py (activity detector) |
| `M_samples.v` | tools.convert_sample_representation, helpers/bytes_conversion.py |
| `M_dynamics.v`, `M_delay.v` | helpers/smoothing.py (time smoothing), effects: compressor, digital delay, rhythm helpers |
| `M_ar.v` | helpers/ar_estimation.py |
| `M_tf.v` | transfer_functions.compute_transfer_function |
| `M_room.v`, `M_shoebox.v` | room_acoustics: start of impulse responses, descriptors, rooms, modes, image sources |
| `M_distances.v` | distances/ |
| `M_crossover.v` | filterbanks/_filterbank.py L61-368 and L1307-1345 (Linkwitz-Riley), L1032-1187 (QMF crossover, FIR prototype), filterbanks/filterbanks.py L453-493 (complementary FIR filter) |
| `M_beam.v` | beamforming/_beamforming.py L21-191 (points), L194-297 (CLEAN-SC); beamforming/beamforming.py L118-295, L403-422 (grids), L471-602 (arrays), L805-880 (delay and sum), L939-999 (CLEAN-SC), L1105-1116, L1139-1314 (orthogonal, functional, minimum variance), L1515-1703 (steering vectors); helpers/other.py L131-178 |
| `M_fracdelay.v` | standard/_standard_backend.py L259-321, L430-493, standard/latency_delay.py L159-264 (fractional delay); beamforming/beamforming.py L1349-1511 (time-domain beamformer, sources, mixtures) |
| `M_ir.v` | transfer_functions/transfer_functions.py L38-184, transfer_functions/_transfer_functions.py L16-42, helpers/windows.py (Tukey-like window), helpers/spectrum_utilities.py (frequencies above a threshold) |
| `M_minphase.v` | helpers/minimum_phase.py L8-80; transfer_functions/transfer_functions.py L615-663, L789-858, L933-987; standard/_standard_backend.py L66-119 |
| `M_groupdelay.v` | classes/filter_helpers.py L167-207; standard/_standard_backend.py L37-63; transfer_functions.py L861-930 (smoothing 0; numerical method without latency removal) |
| `M_transforms.v` | transforms/transforms.py: cepstrum, from_complex_cepstrum, hilbert, stereo_mid_side, laguerre, warp, warp_filter, dft; transforms/_transforms.py: _warp_time_series, _get_warping_factor, _dft_backend. Not modelled: integer dtypes, MFCC, mel and chroma functions, CWT, VQT, LPC, printing |
| `M_mel.v` | Mel scale and filter bank, pitch and chroma bands, A/C weighting |
| `M_generators.v` | Signal generators: dirac, chirp, oscillator, noise |
| `M_irwindow.v` | Windowing of impulse responses |
| `M_harmonics.v` | transfer_functions.py harmonics_from_chirp_ir, _transfer_functions.py _get_chirp_rate, _get_harmonic_times; zero rates not modelled |
| `M_irfilter.v` | transfer_functions.py ir_to_filter, filter_to_ir; filter.py ba setter, is_iir, order; impulse_response.py from_time_data; complex coefficients not modelled |
| `M_average.v` | average_irs: time mean, spectral mean, energies |
| `M_fdw.v` | window_frequency_dependent (transfer_functions.py L1288-1377) and its sum |
| `M_calib.v` | CalibrationData (classes/calibration_data.py); paths not modelled |
| `M_timesel.v` | trim_with_time_selection (standard/pad_trim_methods.py L181-246) |
| `M_fvec.v` | tools.py frequency vectors, log mean; helpers wrap phase and next power of two |
| `M_coeffs.v` | classes/filter.py coefficient attributes and standard/other.py merge_filters |
| `M_lufs.v` | standard/gain_and_level.py L203-282; the K weighting is a parameter (any sections), 0.4*fs is exact |
| `M_effects.v` | effects/effects.py L83-117, L553-750, L1017-1324 (Distortion, Tremolo, Chorus without plots), _effects.py L14-57, L289-472 (LFO; the random phase is an argument) |
| `M_parallel.v` | classes/parallel_filter.py: parameters, coefficients, fit after least squares, filter_signal, real-time calls. Not: pole checks, zpk2sos, lstsq |
| `M_smoothing.v` | helpers/smoothing.py _fractional_octave_smoothing, with scipy's PchipInterpolator, interp1d (linear) and oaconvolve (valid) as defined. Not: windows by name other than hann |
| `M_detrend.v` | detrend, _detrend, envelope |
| `M_specdiff.v` | spectral_difference without smoothing |
| `M_magplot.v` | helpers/spectrum_utilities.py L29-226 (smoothing only as a call of the modelled function; phase and scaling of the STFT not included) |
| `M_linphase.v` | lin_phase_from_mag, _correct_for_real_phase_spectrum and _get_frequency_vector_with_frequency_resolution |
| `M_combine.v` | combine_ir_with_dirac between its two peak normalizations (latencies and crossover bands are parameters; rescaling by the setter within the loop not included) |
| `M_reverb.v` | reverb_time, _reverb, _compute_energy_decay_curve and the fits of the decay curve (the stop index of _trim_ir and the single-point fit of np.polyfit are parameters; warnings not included) |
| `M_trim.v` | transfer_functions.py L1695-1786, _transfer_functions.py L276-410: trimming of impulse responses |
| `M_rirconv.v` | convolution of a signal with a room impulse response (convolve_rir_on_signal) |
| `M_dither.v` | dither (standard/other.py): noise, shaping, rounding to half precision |
| `M_octbank.v` | filterbanks/filterbanks.py L81-214 |
| `M_resfilter.v` | standard/resampling.py L46-83 |
| `M_resample.v` | resample_poly, firwin with Kaiser window 5, resample, true_peak_level |
| `M_csmooth.v` | complex_smoothing and _complex_smoothing_backend for one channel |
| `M_saving.v` | _check_format_in_path, save_signal, pickles, load_pkl_object over a map of files |
| `M_interpfr.v` | helpers/spectrum_utilities.py L331-453 _interpolate_fr, linear scheme, one channel of real values; a nan in the converted response makes the whole result None (in numpy only the segments next to it). Not: quadratic and cubic splines, complex responses |
| `M_append.v` | standard/appending.py L160-204 append_spectra over `M_spectrum.v` |
| `M_appendfb.v` | standard/appending.py L131-157 append_filterbanks over `M_filter.v`; copies of banks and filters are values. Filters other than Filter objects are not modelled |
| `M_gausskernel.v` | filterbanks/filterbanks.py L636-699 gaussian_kernel; scipy tf2sos of a first-order system is its single section. Negative orders are not modelled |
| `M_thiran.v` | filterbanks/filterbanks.py L702-743 fractional_delay; scipy.special.comb is the binomial coefficient |
| `M_matched.v` | filterbanks/filterbanks.py L535-633 matched_biquad, filterbanks/_filterbank.py L1348-1420 and L1481-1504; the shelving types are not modelled |
| `Claims_mel.v` | C78 |
| `Claims_generators.v`, `Claims_chirp.v`, `Claims_osc.v`, `Claims_noise.v` | C79, C80, C81, C82 |
| `Claims_irwindow.v`, `Claims_centered.v` | C83, C84 |
| `Claims_harmonics.v`, `Claims_irfilter.v`, `Claims_average.v`, `Claims_fdw.v` | C85, C86, C87, C88 |
| `Claims_calib.v`, `Claims_timesel.v` | C89, C90 |
| `Claims_fvec.v`, `Claims_misc.v` | C91, C92 |
| `Claims_coeffs.v` | C93 |
| `Claims_lufs.v` | C94 |
| `Claims_distortion.v` | C95 |
| `Claims_tremolo.v` | C96 |
| `Claims_chorus.v` | C97 |
| `Claims_parallel.v` | C98 |
| `Claims_smoothing.v` | C99 |
| `Claims_detrend.v` | C100 |
| `Claims_specdiff.v` | C101 |
| `Claims_magplot.v` | C102 |
| `Claims_linphase.v` | C103 |
| `Claims_combine.v` | C104 |
| `Claims_reverb.v` | C105 |
| `Claims_trim.v` | C106 |
| `Claims_rirconv.v` | C107 |
| `Claims_dither.v` | C108 |
| `Claims_octbank.v` | C109 |
| `Claims_resfilter.v` | C110 |
| `Claims_resample.v` | C111 |
| `Claims_csmooth.v` | C112 |
| `Claims_saving.v` | C113 |
| `Claims_interpfr.v` | C114 |
| `Claims_append.v` | C115 |
| `Claims_appendfb.v` | C116 |
| `Claims_gausskernel.v` | C117 |
| `Claims_thiran.v` | C118 |
| `Claims_matched.v` | C119 |
| `Claims_warping.v` | C77 |
| `P_warping.v` | Allpass chains: energy balance, symmetric kernel, Laguerre outputs |

## 5. What Print Assumptions lists

Letters: N `ClassicalDedekindReals.sig_not_dec`, D `ClassicalDedekindReals.sig_forall_dec`,
F `FunctionalExtensionality.functional_extensionality_dep`, C `Classical_Prop.classic`; all four belong to the standard library.
`none` means "Closed under the global context".

<!-- assumptions begin -->
| property | assumptions | theorems |
|---|---|---|
| C01 | none | `C01_fir_is_convolution`, `C01_single_coefficient_raises` |
| C02 | none | `C02_iir_difference_equation`, `C02_order_zero_raises` |
| C03 | none | `C03_state_space_markov`, `C03_order_one_cannot_be_built` |
| C04 | DFN | `C04_state_variable_filter`, `C04_set_parameters_resets` |
| C05 | CDFN | `C05_stays_in_range`, `C05_rise_time` |
| C05 | DF | `C05_one_step`, `C05_multichannel_raises` |
| C06 | none | `C06_chain_is_composition`, `C06_library_filters_well_typed` |
| C07 | DFN | `C07_overlap_save`, `C07_odd_length_refuted` |
| C08 | DFN | `C08_partitioned_in_turn`, `C08_one_channel`, `C08_short_filter`, `C08_two_channels_refuted` |
| C09 | DFN | `C09_multichannel`, `C09_gain_lost_refuted` |
| C10 | none | `C10_chunks_equal_whole`, `C10_chunks_from_rest`, `C10_single_coefficient_condition_refuted` |
| C11 | none | `C11_first_order_mono_streams`, `C11_state_lost_refuted`, `C11_states_exchanged_refuted`, `C11_sos_second_block_raises_refuted`, `C11_sos_state_lost_refuted` |
| C12 | none | `C12_fir_lattice`, `C12_iir_lattice`, `C12_iir_lengths`, `C12_fir_conversion_loses_gain`, `C12_sos_lattice`, `C12_sos_single`, `C12_sos_not_normalised`, `C12_fir_conversion_refuted`, `C12_iir_a0_refuted`, `C12_sos_six_refuted` |
| C13 | none | `C13_warped_fir`, `C13_filter_signal` |
| C14 | none | `C14_warped_iir`, `C14_loop_unique`, `C14_single_denominator_refuted` |
| C15 | CDFN | `C15_kautz_paths_agree` |
| C15 | DFN | `C15_constructor`, `C15_taps_unique` |
| C16 | none | `C16_polyphase_lossless`, `C16_reported_padding_refuted` |
| C17 | none | `C17_downsample_is_decimated_convolution`, `C17_alignment`, `C17_short_filter_output_empty`, `C17_decimate` |
| C18 | none | `C18_upsample_is_interpolated_convolution`, `C18_short_filter_output_empty`, `C18_zero_stuffing` |
| C19 | none | `C19_single_sample_refuted` |
| C19 | DF | `C19_stored_data`, `C19_invariant`, `C19_constructor`, `C19_integer_data_refuted`, `C19_constrain_drops_imaginary_refuted` |
| C20 | DF | `C20_remove_channel`, `C20_remove_rejects`, `C20_swap_channels`, `C20_swap_rejects`, `C20_get_channels`, `C20_get_rejects`, `C20_get_many_channels_refuted`, `C20_sum_channels`, `C20_add_channel`, `C20_add_channel_turns_refuted` |
| C21 | none | `C21_getters_are_fresh`, `C21_copy_is_fresh`, `C21_smoothing_setter_refuted`, `C21_plot_magnitude_refuted`, `C21_plot_group_delay_refuted`, `C21_window_refuted`, `C21_spectrogram_cache_switch_refuted`, `C21_edit_in_place_refuted` |
| C22 | none | `C22_bands_stay_alike`, `C22_edits` |
| C22 | D | `C22_rejected_band_changes_channel_count_refuted` |
| C22 | DF | `C22_collapse_real`, `C22_collapse_complex`, `C22_first_band_overwritten_refuted`, `C22_second_collapse_differs_refuted`, `C22_get_all_bands` |
| C23 | none | `C23_history`, `C23_rejected_edit`, `C23_edits`, `C23_transfer_function_sequential`, `C23_transfer_function_summed_refuted` |
| C23 | D | `C23_rejected_assignment_changes_rate_refuted` |
| C23 | DF | `C23_parallel`, `C23_sequential`, `C23_summed`, `C23_multirate_parallel_refuted` |
| C24 | DF | `C24_pad_trim`, `C24_pad_then_trim`, `C24_trim_below_channels_refuted`, `C24_imaginary_lost_refuted` |
| C25 | none | `C25_delay_samples`, `C25_rejects`, `C25_delays_add` |
| C25 | DF | `C25_imaginary_lost_refuted` |
| C26 | DF | `C26_append`, `C26_rejects`, `C26_multiband_first_band_refuted`, `C26_many_channels_refuted`, `C26_multiband` |
| C27 | none | `C27_trim_keeps_loud_span`, `C27_silence_raises` |
| C27 | DF | `C27_short_result_turned_refuted` |
| C28 | none | `C28_overlap_add_counts`, `C28_constant_overlap`, `C28_float_length_refuted` |
| C28 | DF | `C28_windowed_reconstruction`, `C28_arguments_overwritten`, `C28_second_call_differs_refuted` |
| C29 | none | `C29_padded_frames`, `C29_unpadded_frames`, `C29_last_frame_missing_iff`, `C29_short_signal` |
| C30 | DF | `C30_pair_exact`, `C30_antisymmetric` |
| C30 | DFN | `C30_two_signals_exact`, `C30_correlation_is_sign`, `C30_single_signal_reversed`, `C30_single_signal_two_channels`, `C30_single_signal_refuted`, `C30_latency_of_delay` |
| C31 | DF | `C31_trim_keeps_range`, `C31_limits_on_bins`, `C31_trim_failures`, `C31_exclusive_refuted`, `C31_failed_trim_refuted` |
| C32 | DF | `C32_exact_value` |
| C32 | DFN | `C32_interpolation_inside`, `C32_values_on_grid`, `C32_between_neighbours`, `C32_edges`, `C32_multichannel_edges_refuted`, `C32_complex_output_refuted`, `C32_resample_same_grid` |
| C33 | DFN | `C33_no_window_is_ones`, `C33_scaling_factor`, `C33_conversion`, `C33_inverse_and_chain` |
| C34 | none | `C34_conversion`, `C34_monotone`, `C34_float_round_trip`, `C34_most_negative_code_refuted`, `C34_signed_unsigned`, `C34_widen_and_back_refuted`, `C34_dispatch` |
| C35 | none | `C35_values_survive`, `C35_bytes_survive`, `C35_bad_length_rejected`, `C35_wraps` |
| C36 | CDFN | `C36_compressor_gain`, `C36_reduction_uses_release_time`, `C36_hard_knee_nan`, `C36_relative_threshold_nan`, `C36_mix_and_post_gain_ignored`, `C36_relative_threshold_homogeneous` |
| C36 | DF | `C36_static_curve` |
| C37 | CDFN | `C37_peak_kept`, `C37_parameters` |
| C37 | DF | `C37_feedback_comb`, `C37_length`, `C37_zero_delay` |
| C38 | none | `C38_dotted_and_triplets`, `C38_reciprocal`, `C38_plain_notes`, `C38_32nd_refuted`, `C38_tempo_refuted` |
| C39 | DF | `C39_levinson_solves`, `C39_levinson_raises`, `C39_yule_walker_optimal`, `C39_columns` |
| C40 | CDFN | `C40_smoothing_recurrence`, `C40_smoothing_range`, `C40_step_response` |
| C41 | DF | `C41_selected_channels`, `C41_rejects`, `C41_imaginary_lost_refuted` |
| C42 | CDFN | `C42_fit_is_projection` |
| C43 | DF | `C43_levinson_stable`, `C43_yule_walker_stable`, `C43_negative_start_refuted`, `C43_burg_stable`, `C43_burg_too_short`, `C43_burg_columns_padded` |
| C44 | DF | `C44_energy_between_bins`, `C44_total_energy`, `C44_energy_laws`, `C44_split_off_grid_refuted` |
| C45 | DF | `C45_get_channels`, `C45_swap_channels`, `C45_coherence_refuted` |
| C45 | DFN | `C45_power_sum` |
| C46 | CDFN | `C46_apply_gain` |
| C46 | DFN | `C46_unity_at_reference`, `C46_reference_channel`, `C46_outside_range` |
| C47 | DFN | `C47_parseval`, `C47_parseval_windowed`, `C47_amplitude_squared_is_power`, `C47_cosine_reads_rms`, `C47_constant_reads_value`, `C47_fft_norms` |
| C48 | DFN | `C48_total_power`, `C48_real_and_homogeneous`, `C48_detrend_removes_dc`, `C48_amplitude_missing_factor`, `C48_amplitude_refuted`, `C48_median_grows`, `C48_short_mono_refuted` |
| C49 | DFN | `C49_hermitian`, `C49_diagonal`, `C49_entries`, `C49_positive_semidefinite`, `C49_fft_products`, `C49_fft_diagonal`, `C49_fft_diagonal_refuted`, `C49_windowed_refuted` |
| C50 | DFN | `C50_h1_least_squares`, `C50_coherence_and_order`, `C50_exact_system`, `C50_amplitude_root`, `C50_gain`, `C50_default_scaling_refuted` |
| C51 | CDFN | `C51_there_and_back`, `C51_back_and_there`, `C51_amplitude_power`, `C51_gains_add`, `C51_dynamic_range`, `C51_silence_refuted` |
| C52 | CDFN | `C52_peak_whole`, `C52_peak_each`, `C52_rms_each`, `C52_rms_whole`, `C52_rms_level_refuted`, `C52_constant_refuted`, `C52_gains_add`, `C52_complex_refuted`, `C52_normalize_complex_refuted`, `C52_gain_count`, `C52_gains_on_mono_refuted`, `C52_filter_gain`, `C52_bank_gain`, `C52_crest_bands_law`, `C52_crest_bands_refuted` |
| C52 | DFN | `C52_rms_is_deviation`, `C52_crest_at_least_one` |
| C53 | CDFN | `C53_fade`, `C53_gains`, `C53_outside_unchanged`, `C53_refusals`, `C53_short_fades`, `C53_default_length_refuted` |
| C53 | DF | `C53_time_vector_refuted` |
| C54 | CDFN | `C54_partition`, `C54_level_follows_release`, `C54_steady`, `C54_attack_ignored_refuted`, `C54_alternating_refuted`, `C54_constant_raises_refuted`, `C54_threshold_monotone`, `C54_relative_scale` |
| C54 | DF | `C54_empty_part` |
| C55 | CDFN | `C55_pointwise`, `C55_stable`, `C55_bounded`, `C55_peaking`, `C55_lowpass`, `C55_highpass`, `C55_bandpass`, `C55_notch`, `C55_allpass`, `C55_shelf`, `C55_first_order`, `C55_cut_undoes_boost`, `C55_inverter_refuted` |
| C56 | CDFN | `C56_start`, `C56_d50`, `C56_d50_exists`, `C56_c80`, `C56_centre_time`, `C56_centre_time_refuted`, `C56_gain`, `C56_leading_silence`, `C56_channels`, `C56_bands_refuted` |
| C57 | CDFN | `C57_reciprocity`, `C57_mirror`, `C57_mode_sum` |
| C57 | DF | `C57_in_room`, `C57_in_room_refuted`, `C57_detailed`, `C57_detailed_accepted`, `C57_dictionary_refuted` |
| C57 | DFN | `C57_sabine`, `C57_accepted`, `C57_round_trip`, `C57_both_refuted`, `C57_shoebox`, `C57_modes`, `C57_lowest_mode`, `C57_alpha`, `C57_uniform`, `C57_stale_refuted` |
| C58 | DF | `C58_wall_areas_refuted` |
| C58 | DFN | `C58_success`, `C58_images`, `C58_reciprocity`, `C58_direct_first`, `C58_absorption`, `C58_direct_level`, `C58_cube`, `C58_long_room_refuted`, `C58_lost_images_refuted`, `C58_walls` |
| C59 | DFN | `C59_round_trip`, `C59_late_refuted`, `C59_drift_refuted`, `C59_no_overlap_refuted`, `C59_unpadded`, `C59_unpadded_start`, `C59_units_refuted`, `C59_power_sign`, `C59_power_refuted`, `C59_shape` |
| C60 | CDFN | `C60_si_sdr`, `C60_scale_invariant`, `C60_refused`, `C60_snr`, `C60_offset_refuted`, `C60_snr_laws` |
| C61 | CDFN | `C61_metric`, `C61_zero`, `C61_gain`, `C61_level_difference`, `C61_upper_limit_refuted`, `C61_one_bin_refuted`, `C61_itakura_saito`, `C61_negative_refuted`, `C61_negative_normalised_refuted` |
| C62 | CDFN | `C62_range`, `C62_silence_refuted`, `C62_gains`, `C62_copy` |
| C63 | DF | `C63_bands_add_to_the_cascade`, `C63_energy`, `C63_streaming` |
| C63 | DFN | `C63_sum_of_bands_is_allpass`, `C63_first_order_sum_is_input`, `C63_magnitude_one`, `C63_crossover_level`, `C63_streaming_three_refuted`, `C63_start_of_stream` |
| C64 | DF | `C64_reconstruction`, `C64_perfect_reconstruction`, `C64_odd_prototype_refuted`, `C64_short_prototype_refuted`, `C64_odd_rate` |
| C65 | DF | `C65_sum_is_delayed_input`, `C65_even_sum`, `C65_linear_phase_refuted` |
| C66 | DF | `C66_rectangular_grid`, `C66_box_grid`, `C66_line_grid`, `C66_single_point_refuted`, `C66_dimensions`, `C66_extent`, `C66_point_lengths` |
| C66 | DFN | `C66_distance`, `C66_nearest_point`, `C66_aperture`, `C66_center`, `C66_helmholtz_round_trip`, `C66_frequency_range`, `C66_history`, `C66_moved_array_refuted`, `C66_unmoved_array` |
| C67 | DFN | `C67_unit_gain`, `C67_gain`, `C67_norm`, `C67_true_power_least_noise`, `C67_peak_at_source`, `C67_peak_at_source_refuted` |
| C68 | CDFN | `C68_band`, `C68_nonnegative`, `C68_recording_nonnegative`, `C68_linear`, `C68_source_power`, `C68_source_location`, `C68_self_noise`, `C68_removed_diagonal` |
| C69 | CDF | `C69_minimum_variance` |
| C69 | CDFN | `C69_functional`, `C69_functional_single_source` |
| C69 | DF | `C69_orthogonal_law`, `C69_orthogonal_bound`, `C69_orthogonal_sparse`, `C69_orthogonal_total_refuted`, `C69_orthogonal_distinct` |
| C69 | DFN | `C69_source_in_noise`, `C69_fft_no_inverse_refuted` |
| C70 | DF | `C70_arguments` |
| C70 | DFN | `C70_degraded_map`, `C70_result`, `C70_sparse`, `C70_one_round`, `C70_removed_from_peak`, `C70_overshoot_refuted` |
| C71 | CDFN | `C71_interpolation`, `C71_whole_delay`, `C71_equals_delay`, `C71_limits`, `C71_linear`, `C71_time_invariant`, `C71_attenuation` |
| C72 | CDFN | `C72_monopole`, `C72_mixture`, `C72_equal_lengths`, `C72_repeated_calls`, `C72_same_call_refuted`, `C72_beamformer`, `C72_focus` |
| C73 | CDFN | `C73_recovers_system`, `C73_padded`, `C73_regularised`, `C73_two_limits`, `C73_automatic_range`, `C73_fast_length_refuted`, `C73_scaling_mismatch_refuted`, `C73_nyquist_refuted`, `C73_first_channel_range_refuted` |
| C74 | CDFN | `C74_unique`, `C74_minimum_phase_ir`, `C74_invariance`, `C74_alpha`, `C74_rejects`, `C74_symmetric_method_refuted`, `C74_idempotent`, `C74_gain`, `C74_cascade`, `C74_minimum_phase`, `C74_from_magnitude`, `C74_truncation_refuted` |
| C75 | CDFN | `C75_numeric`, `C75_numeric_delay`, `C75_numeric_late_refuted`, `C75_one_second_refuted` |
| C75 | DFN | `C75_analytic`, `C75_linear_phase`, `C75_cascade`, `C75_delay`, `C75_reversed`, `C75_group_delay`, `C75_odd_length`, `C75_odd_length_refuted`, `C75_latency` |
| C76 | CDFN | `C76_cepstrum_defined`, `C76_cepstrum_round_trip`, `C76_real_cepstrum`, `C76_real_cepstrum_convolution`, `C76_complex_cepstrum_sum_refuted` |
| C76 | DF | `C76_mid_side_channels`, `C76_mid_side`, `C76_mid_side_round_trip`, `C76_side_mid_round_trip_refuted` |
| C76 | DFN | `C76_hilbert`, `C76_hilbert_unique`, `C76_hilbert_quadrature`, `C76_hilbert_signal`, `C76_hilbert_constrained_refuted`, `C76_hilbert_bands`, `C76_dft`, `C76_dft_channels` |
| C77 | CDFN | `C77_warp_turning_point`, `C77_factor`, `C77_factor_range`, `C77_factor_units_refuted`, `C77_warp_signal`, `C77_warp_length_refuted` |
| C77 | DF | `C77_warp_is_warped_fir`, `C77_warp_spread`, `C77_warp_zero`, `C77_warp_linear`, `C77_dewarping_refuted`, `C77_warp_filter`, `C77_warp_filter_defined`, `C77_warp_stable`, `C77_warp_circle`, `C77_warp_filter_back`, `C77_warp_gain_refuted` |
| C77 | DFN | `C77_laguerre_energy`, `C77_laguerre_adjoint`, `C77_laguerre_inverse_error`, `C77_laguerre_inversion_refuted`, `C77_laguerre_zero`, `C77_laguerre_signal` |
| C78 | CDFN | `C78_mel_scale`, `C78_filterbank`, `C78_normalized`, `C78_normalized_refuted`, `C78_range_errors`, `C78_log_mel`, `C78_pitch_bands`, `C78_chroma`, `C78_weighting_db` |
| C78 | DFN | `C78_weighting`, `C78_weighting_shape` |
| C79 | DF | `C79_dirac_refusals`, `C79_dirac_wide_refuted` |
| C79 | DFN | `C79_dirac` |
| C80 | CDFN | `C80_sweep`, `C80_end_frequency_refuted`, `C80_constant_refuted`, `C80_equal_log_refuted`, `C80_refusals`, `C80_default_range`, `C80_sync`, `C80_sync_end_phase_refuted`, `C80_sync_offset_refuted`, `C80_sync_short_refuted` |
| C81 | CDFN | `C81_tone`, `C81_harmonics`, `C81_empty_refuted`, `C81_refusals` |
| C81 | DFN | `C81_period` |
| C82 | CDFN | `C82_spectrum`, `C82_power_law`, `C82_named_colours`, `C82_white_low_refuted`, `C82_short_refuted`, `C82_refusals` |
| C83 | DF | `C83_fixed`, `C83_fixed_early_refuted`, `C83_adaptive`, `C83_adaptive_short_refuted`, `C83_ratio_refuted`, `C83_lost_peak_refuted`, `C83_window_ir`, `C83_tukey`, `C83_tukey_checks` |
| C84 | DF | `C84_centred`, `C84_crash_refuted`, `C84_silence_refuted`, `C84_start_refuted`, `C84_padding_refuted`, `C84_window_centered_ir` |
| C85 | CDFN | `C85_times`, `C85_pieces`, `C85_early_refuted`, `C85_refusals` |
| C86 | DF | `C86_channel_filter`, `C86_bank_of_channels`, `C86_no_such_channel`, `C86_response_of_filter`, `C86_round_trip_filter`, `C86_round_trip_response`, `C86_gain_lost_refuted`, `C86_one_tap_refuted`, `C86_bank_responses`, `C86_many_filters_refuted`, `C86_fir_coefficients`, `C86_refusals` |
| C87 | CDFN | `C87_time_average`, `C87_delayed_copies`, `C87_normalised_law`, `C87_normalisation_refuted`, `C87_spectral_average`, `C87_identical_channels`, `C87_padded_refuted`, `C87_opposite_signs_refuted`, `C87_refusals` |
| C88 | CDFN | `C88_bins`, `C88_window`, `C88_mean_refuted`, `C88_scaled`, `C88_delayed`, `C88_sign_of_cycles_refuted`, `C88_long_windows`, `C88_refusals` |
| C89 | CDFN | `C89_calibrated`, `C89_tone`, `C89_levels`, `C89_offset`, `C89_history`, `C89_never_stale`, `C89_changed_level_refuted`, `C89_low_snr_refuted`, `C89_channel_count`, `C89_complex_refuted`, `C89_silent_recording_refuted` |
| C90 | DF | `C90_law`, `C90_on_grid`, `C90_inclusive_refuted`, `C90_exclusive_refuted`, `C90_two_parts`, `C90_zero_refuted`, `C90_refusals`, `C90_short_refuted`, `C90_bands`, `C90_complex_refuted` |
| C91 | CDFN | `C91_log_vector`, `C91_upper_end_refuted`, `C91_log_refusals`, `C91_exact`, `C91_range_refuted`, `C91_iec`, `C91_first_band_refuted`, `C91_gap_refuted`, `C91_descending`, `C91_erb_scale`, `C91_erb_grid`, `C91_erb_reference` |
| C92 | CDFN | `C92_powers`, `C92_closest_rule`, `C92_closest_refuted`, `C92_below_one_refuted`, `C92_not_positive`, `C92_log_mean_range`, `C92_log_mean_front`, `C92_log_mean_linear`, `C92_log_mean_ramp` |
| C92 | DFN | `C92_wrap`, `C92_wrap_again`, `C92_wrap_pi_refuted` |
| C93 | DF | `C93_one_form`, `C93_three_forms_refuted`, `C93_is_fir`, `C93_order`, `C93_order_gain_refuted`, `C93_stale_zpk_refuted`, `C93_merge_refused`, `C93_order_ba`, `C93_sections_checked` |
| C93 | DFN | `C93_ba_response`, `C93_history`, `C93_ba_ignored_refuted`, `C93_unnormalised_refuted`, `C93_merge_fir`, `C93_merge_iir` |
| C94 | CDFN | `C94_gates`, `C94_bounds`, `C94_quiet`, `C94_uniform`, `C94_gain`, `C94_channels`, `C94_short_refuted`, `C94_tail_ignored_refuted`, `C94_caller_refuted` |
| C95 | CDFN | `C95_law`, `C95_mix_refuted`, `C95_peak`, `C95_peak_refuted`, `C95_scale`, `C95_silence_refuted`, `C95_order`, `C95_softclip_refuted`, `C95_softclip_guarded`, `C95_refused_refuted` |
| C95 | DF | `C95_accepted` |
| C96 | CDFN | `C96_plain`, `C96_smooth_square_refuted`, `C96_triangle_refuted`, `C96_tremolo` |
| C96 | DF | `C96_array_refuted`, `C96_refused_refuted` |
| C97 | CDFN | `C97_apply`, `C97_stale_refuted` |
| C97 | DF | `C97_channel`, `C97_delayed_refuted`, `C97_accepted`, `C97_kept`, `C97_array_refuted` |
| C98 | DF | `C98_realised`, `C98_spacing_refuted`, `C98_streaming`, `C98_coefficients_refuted`, `C98_unfitted`, `C98_parameters_refuted`, `C98_leading_zero_refuted`, `C98_spacing_only` |
| C99 | CDFN | `C99_range`, `C99_clip`, `C99_affine`, `C99_weighted_mean`, `C99_additive_refuted`, `C99_window_vector` |
| C99 | DF | `C99_width` |
| C99 | DFN | `C99_hann` |
| C100 | DF | `C100_detrend`, `C100_detrend_unique`, `C100_least_squares`, `C100_energy`, `C100_linear`, `C100_trend`, `C100_idempotent`, `C100_mean`, `C100_signal`, `C100_constrained_refuted`, `C100_bands` |
| C100 | DFN | `C100_rms`, `C100_rms_start_refuted`, `C100_envelope`, `C100_envelope_trend` |
| C101 | CDFN | `C101_difference`, `C101_channels`, `C101_same_grid`, `C101_self`, `C101_real_output_refuted`, `C101_dynamic_range`, `C101_gain_invariance`, `C101_complex`, `C101_complex_range_refuted`, `C101_complex_magnitude` |
| C101 | DFN | `C101_unit_energy` |
| C102 | CDFN | `C102_values`, `C102_max`, `C102_one_khz`, `C102_gain`, `C102_power_amplitude`, `C102_energy`, `C102_calibrated`, `C102_one_khz_outside`, `C102_one_khz_edge_refuted`, `C102_power_energy_first_refuted`, `C102_power_smoothing_refuted` |
| C103 | CDFN | `C103_response`, `C103_short_refuted`, `C103_flat_refuted` |
| C103 | DF | `C103_delay`, `C103_room` |
| C103 | DFN | `C103_symmetric` |
| C104 | CDFN | `C104_impulses`, `C104_aligned`, `C104_second_channel_refuted`, `C104_result`, `C104_energy`, `C104_peak`, `C104_decibel` |
| C105 | CDFN | `C105_curve`, `C105_noise_free`, `C105_immediate_refuted`, `C105_given_start_refuted`, `C105_exponential`, `C105_level_refuted` |
| C105 | DFN | `C105_regression`, `C105_exact`, `C105_true_time_refuted`, `C105_unreached`, `C105_too_few`, `C105_adaptive_exact`, `C105_adaptive_fit` |
| C106 | CDFN | `C106_decay_end`, `C106_safety`, `C106_bounds`, `C106_last_peak_refuted`, `C106_short_refuted`, `C106_level_refuted`, `C106_trim_ir`, `C106_no_offset` |
| C107 | DF | `C107_plain`, `C107_peak`, `C107_silent_refuted`, `C107_late_refuted`, `C107_silence_refuted`, `C107_gain`, `C107_impulse`, `C107_balance_refuted`, `C107_errors` |
| C108 | CDFN | `C108_noise`, `C108_bound`, `C108_truncated`, `C108_default_refuted`, `C108_bound_refuted`, `C108_precision_refuted`, `C108_overflow_refuted`, `C108_shaped` |
| C109 | CDFN | `C109_reconstruction`, `C109_symmetry`, `C109_default_refuted` |
| C110 | DF | `C110_response` |
| C110 | DFN | `C110_frequency`, `C110_same_rate`, `C110_moving_average_refuted`, `C110_lost_zero_refuted` |
| C111 | CDFN | `C111_true_peak` |
| C111 | DFN | `C111_resample`, `C111_old_samples`, `C111_same_rate`, `C111_imaginary_refuted`, `C111_few_samples_refuted` |
| C112 | CDFN | `C112_mean`, `C112_magnitude`, `C112_equivalent`, `C112_phase`, `C112_constant` |
| C113 | none | `C113_path`, `C113_kept`, `C113_save_load`, `C113_history`, `C113_save_signal`, `C113_dotted_name_refuted` |
| C114 | CDFN | `C114_interpolation`, `C114_between`, `C114_same_decibels`, `C114_sign_refuted` |
| C115 | DFN | `C115_channels`, `C115_same_frequencies`, `C115_complex_refuted`, `C115_refused` |
| C116 | none | `C116_filters`, `C116_refused`, `C116_multirate_refuted` |
| C116 | DF | `C116_filtering` |
| C117 | CDFN | `C117_response`, `C117_gaussian`, `C117_order_zero_refuted` |
| C118 | DFN | `C118_delay` |
| C118 | DF | `C118_refused` |
| C119 | CDFN | `C119_stable`, `C119_highpass`, `C119_lowpass`, `C119_bandpass`, `C119_peaking`, `C119_extreme`, `C119_neutral`, `C119_equalizer`, `C119_refused` |
<!-- assumptions end -->
