{"id": "C01", "title": "Real-time FIR filter is a convolution", "statement": "Feeding samples one at a time to FIRFilter.process_sample, on any channel and in any interleaving of channels, returns for each call the convolution of that channel's own past samples with the coefficients (samples before the start, or before the last reset, count as zero). It needs at least two coefficients: with a single coefficient the call raises.", "quantifier": "all coefficient vectors with length >= 2, all channel counts, all finite histories of process_sample/reset_state calls", "why_tests_cant": "the circular buffer has one write index per channel wrapping at an arbitrary order; the claim is about every order and every history length", "anchors": ["dsptoolbox/classes/fir_filter_realtime.py:FIRFilter", "dsptoolbox/classes/realtime_filter.py:RealtimeFilter"]}
{"id": "C02", "title": "Real-time IIR filter satisfies its difference equation", "statement": "IIRFilter.process_sample returns y[n] with a0*y[n] = sum_k b_k*x[n-k] - sum_{k>=1} a_k*y[n-k] for the samples of that channel, for any (different) lengths of b and a, any interleaving of channels, and reset_state makes the filter behave as freshly created. An order-0 filter raises.", "quantifier": "all b, a with a0 invertible and order >= 1, all histories of process_sample/reset_state calls", "why_tests_cant": "transposed direct form II keeps mixed state; equality with the difference equation has to hold for every order and every time index", "anchors": ["dsptoolbox/classes/iir_filter_realtime.py:IIRFilter"]}
{"id": "C03", "title": "State-space filter realises its Markov parameters", "statement": "StateSpaceFilter.process_sample returns y[n] = D*u[n] + sum_{k<n} C*A^(n-1-k)*B*u[k] per channel for every system of order >= 2; a system of order 1 cannot process any sample (the squeezed matrices make the call raise).", "quantifier": "all matrices A (n x n, n >= 2), vectors B, C, scalar D and all input sequences and channel interleavings", "why_tests_cant": "closed form over all time indices and all system orders", "anchors": ["dsptoolbox/classes/state_space_filter.py:StateSpaceFilter"]}
{"id": "C04", "title": "State-variable filter outputs are complementary and its allpass is lossless", "statement": "For every sample, StateVariableFilter returns outputs with lowpass + R*bandpass + highpass = input and allpass = input - 2*R*bandpass, where R is twice the damping; changing the parameters resets the state, and over any run the energy delivered by the allpass output plus the energy stored in the state equals the input energy.", "quantifier": "all admissible frequencies and resonances (any g > 0, R > 0), all input histories", "why_tests_cant": "energy balance is an invariant over an unbounded run for a continuum of parameters", "anchors": ["dsptoolbox/classes/sv_filter.py:StateVariableFilter"]}
{"id": "C05", "title": "Exponential averager never leaves the range of its input", "statement": "The output of ExponentialAverageFilter on one channel always lies between its previous output and the new sample, hence inside any interval that contains 0 and all the inputs; rising and falling coefficients are chosen by comparing the new sample with the previous output. With more than one channel any call raises.", "quantifier": "all coefficients in [0,1], all histories", "why_tests_cant": "statement over unbounded histories and a continuum of coefficients", "anchors": ["dsptoolbox/classes/exponential_average_filter.py:ExponentialAverageFilter"]}
{"id": "C06", "title": "A filter chain is the composition of its filters", "statement": "FilterChain.process_sample over any history produces what one gets by running the whole history through the first filter, then the whole output through the second one, and so on; reset_state returns every member to its fresh state.", "quantifier": "all lists of real-time filters (any state type), all histories and channel interleavings", "why_tests_cant": "exchange of two nested loops (time and filters) for arbitrary stateful members", "anchors": ["dsptoolbox/classes/filter_chain.py:FilterChain"]}
{"id": "C07", "title": "Overlap-save block convolution equals direct convolution", "statement": "Any sequence of prepare, process_block and reset_state calls on FIRFilterOverlapSave is answered, per channel, with the direct convolution of the samples received since prepare/reset with the filter, provided the internal FFT length (smallest 5-smooth number >= filter length + block size) is even; bad channels and block sizes raise and change nothing. When that length is odd the output is wrong (witness for every block of two samples).", "quantifier": "all FIR coefficients, block sizes, numbers of channels and call sequences", "why_tests_cant": "wrap-around of the circular convolution must fall outside the kept samples for every pair of lengths", "anchors": ["dsptoolbox/classes/fir_filter_realtime.py:FIRFilterOverlapSave"]}
{"id": "C08", "title": "Uniformly partitioned convolution equals direct convolution", "statement": "FIRUniformPartitioned answers every call sequence with the per-channel direct convolution if there is one channel, or the filter is shorter than the block, or more generally if the number of calls between two blocks of a channel is 1 modulo the number of partitions; rejected calls change nothing and reset_state works at any moment. With several channels in turn the shared partition index makes the result wrong (witness given).", "quantifier": "all FIR coefficients, block sizes, channels and call sequences meeting the condition; refutation for two channels", "why_tests_cant": "correctness depends on a ring buffer of spectra over an unbounded number of blocks", "anchors": ["dsptoolbox/classes/fir_filter_realtime.py:FIRUniformPartitioned"]}
{"id": "C09", "title": "Multichannel partitioned convolution is per-channel convolution", "statement": "FIRUniformPartitionedMultichannel returns for each channel the direct convolution of that channel's stream with its own coefficients times a gain that is 1 if no coefficient exceeds 1 in magnitude and 1/peak otherwise (witness: gain silently lost); arrays with more columns than rows are taken as channels x samples.", "quantifier": "all real coefficient arrays, block sizes and block histories", "why_tests_cant": "as C08 plus silent rescaling that depends on coefficient values", "anchors": ["dsptoolbox/classes/fir_filter_realtime.py:FIRUniformPartitionedMultichannel"]}
{"id": "C10", "title": "FIR filtering in chunks equals filtering in one go", "statement": "Filtering a signal in consecutive blocks with the FIR helper while handing over the final condition gives exactly the samples of filtering the whole signal at once, for filters with at least two coefficients and blocks of any sizes.", "quantifier": "all coefficient vectors of length >= 2, all signals, all ways to cut them into blocks", "why_tests_cant": "all cut positions, including blocks shorter than the filter", "anchors": ["dsptoolbox/classes/filter_helpers.py:_lfilter_fir"]}
{"id": "C11", "title": "Streaming with filter_signal(activate_zi=True)", "statement": "Filtering a signal block by block with activate_zi=True should give what one call on the whole signal gives. This holds for first-order ba filters on mono signals only. If the number of filter states differs from the number of channels every block is restarted from the initial state; if they agree (two or more) the channels exchange state entries; with second-order sections and as many sections as channels (other than two) every block after the first raises ValueError. Each single call is shown to satisfy the difference equation from the state it started with.", "quantifier": "all coefficients, channel counts and sequences of blocks", "why_tests_cant": "the error appears only in histories of at least two calls", "anchors": ["dsptoolbox/classes/filter_helpers.py:_filter_on_signal", "dsptoolbox/classes/filter_helpers.py:_filter_on_signal_ba", "dsptoolbox/classes/filter.py:Filter.filter_signal"]}
{"id": "C12", "title": "Lattice filters reproduce the direct-form filter", "statement": "The FIR lattice filter built from coefficients with b0 = 1 and the IIR lattice-ladder filter built from (b, a) with a0 = 1 give the same output as the direct-form filter on every input, whenever the reflection coefficients are not +-1; filter_signal equals feeding the samples one by one.", "quantifier": "all orders, coefficients with defined reflection coefficients, all inputs", "why_tests_cant": "step-down recursion and lattice state must be related by induction over the order and over time", "anchors": ["dsptoolbox/classes/lattice_ladder_filter.py:LatticeLadderFilter"]}
{"id": "C13", "title": "Warped FIR taps obey the allpass recursion", "statement": "Every call sequence on WarpedFIR is answered per channel with sum_k b_k*y_k[n], where y_0 is the input since the last reset and each y_{k+1} is y_k passed through the first-order allpass of the warping factor; for warping factor 0 this is the ordinary convolution. filter_signal equals a fresh filter fed sample by sample and leaves the object's buffers unchanged.", "quantifier": "all coefficients, warping factors, input histories and channel interleavings", "why_tests_cant": "in-place update of the buffer while it is being read; needs an invariant over all taps and times", "anchors": ["dsptoolbox/classes/warped_filters.py:WarpedFIR"]}
{"id": "C14", "title": "Warped IIR filter solves its delay-free loop", "statement": "WarpedIIR finds the (unique) internal signal w with sum_k a_k*y_k[n] = x[n] (y_k the allpass chain driven by w) and returns sum_k b_k*y_k[n], for at least two denominator coefficients whenever the loop gain sum_k a_k(-lambda)^k is not zero. With a single denominator coefficient the output is wrong (witness).", "quantifier": "all coefficient vectors with len(a) >= 2, warping factors and histories", "why_tests_cant": "the sigma coefficients must solve an algebraic loop for every order and every buffer content", "anchors": ["dsptoolbox/classes/warped_filters.py:WarpedIIR"]}
{"id": "C15", "title": "Kautz filter: sample-wise and whole-signal processing agree", "statement": "KautzFilter.process_sample fed with all the samples returns the same signal as filter_signal, for any mix of real and complex-pair poles and any tap weights.", "quantifier": "all pole sets, coefficients and inputs", "why_tests_cant": "equality of two independent implementations over every input length", "anchors": ["dsptoolbox/classes/kautz_filter.py:KautzFilter"]}
{"id": "C16", "title": "Polyphase decomposition is lossless", "statement": "Reconstructing from the polyphase representation returns the original samples after the reported padding, for every number of phases, length, channel count and flip setting.", "quantifier": "all lengths, phase counts, channel data", "why_tests_cant": "index arithmetic with padding for all residues", "anchors": ["dsptoolbox/helpers/polyphase.py:_polyphase_decomposition", "dsptoolbox/helpers/polyphase.py:_polyphase_reconstruction"]}
{"id": "C17", "title": "Filter-and-downsample is a decimated convolution", "statement": "Filtering while downsampling by d returns every d-th sample of the full convolution with the filter (with the documented start padding offset), for every filter, signal length and d; filters with at most two coefficients produce an empty output.", "quantifier": "all b, x, d >= 1", "why_tests_cant": "polyphase index identities for all residues of both lengths", "anchors": ["dsptoolbox/classes/filter_helpers.py:_filter_and_downsample"]}
{"id": "C18", "title": "Filter-and-upsample is a convolution of the zero-stuffed signal", "statement": "Filtering while upsampling by u returns u times the convolution of the zero-stuffed signal with the filter.", "quantifier": "all b, x, u >= 1", "why_tests_cant": "polyphase index identities for all residues", "anchors": ["dsptoolbox/classes/filter_helpers.py:_filter_and_upsample"]}
{"id": "C19", "title": "Assigning time data keeps the Signal well formed", "statement": "After any successful assignment of time data the Signal stores a two-dimensional array with at least as many samples as channels, real and imaginary parts have the same shape, and with constrain_amplitude on, every stored magnitude is at most 1 and dividing by the reported scale factor gives the assigned values back.", "quantifier": "all arrays and all setter histories", "why_tests_cant": "holds for every shape and value, after any sequence of assignments", "anchors": ["dsptoolbox/classes/signal.py:Signal.time_data"]}
{"id": "C20", "title": "Channel editing behaves like list editing", "statement": "remove_channel, swap_channels, get_channels, sum_channels and add_channel act on the channels as the corresponding list operations, reject invalid indices without changing the object, and any sequence of them keeps all channels of equal length and at least one channel.", "quantifier": "all signals and all sequences of channel operations", "why_tests_cant": "invariant over arbitrary operation histories", "anchors": ["dsptoolbox/classes/_multichannel_data.py:MultichannelData", "dsptoolbox/classes/signal.py:Signal.add_channel"]}
{"id": "C21", "title": "Cached spectra are never stale", "statement": "After any sequence of setter calls, parameter changes, plots and getters, with caching on, off or (for spectrum and cross-spectral matrix) switched at any time, get_spectrum, get_csm and get_spectrogram return what a computation from the present data and parameters returns. Left out of the theorem because the code returns stale results there (witness for each): spectrum_smoothing setter with FFT, plot_magnitude/plot_phase with smoothing, plot_group_delay, set_window, switching activate_cache between spectrograms, editing the array in place.", "quantifier": "all histories of assignments, parameter changes and reads", "why_tests_cant": "cache invalidation bugs only show up for particular orders of calls", "anchors": ["dsptoolbox/classes/signal.py:Signal.get_spectrum", "dsptoolbox/classes/signal.py:Signal.spectrum_smoothing"]}
{"id": "C22", "title": "Multi-band containers stay consistent and collapse sums the bands", "statement": "Any sequence of assignments, add, remove and swap operations (accepted or rejected) keeps all bands with equal channel counts and equal kind (real/complex) and, in constant-rate mode, equal rates and lengths; accepted edits are the list operations; get_all_bands puts the bands side by side; collapse returns the sample-wise sum of the bands. Defects, with witnesses: collapse overwrites the first band, so a second collapse differs; a rejected add_band at the front changes the reported number of channels.", "quantifier": "all band lists and operation histories", "why_tests_cant": "aliasing shows up only in sequences of two or more calls", "anchors": ["dsptoolbox/classes/multibandsignal.py:MultiBandSignal"]}
{"id": "C23", "title": "Filter bank modes agree with the filters they contain", "statement": "Parallel mode returns each filter's output in order, sequential mode the composition and summed mode the sum of the outputs; add/remove/swap keep the list semantics, keep the recorded sampling rate equal to that of every filter, and leave the bank unchanged when rejected. Defects, with witnesses: the summed transfer function is the sum plus one; a rejected assignment of filters changes the recorded rate; a bank with several rates refuses every signal.", "quantifier": "all filter lists, signals and edit histories", "why_tests_cant": "all list sizes and histories", "anchors": ["dsptoolbox/classes/filterbank.py:FilterBank"]}
{"id": "C24", "title": "pad_trim keeps the retained samples and pads with zeros", "statement": "pad_trim to any length returns a signal of exactly this length whose overlapping samples are unchanged and the others zero; padding and trimming back is the identity. Trimming to fewer samples than channels silently swaps the axes (witness given).", "quantifier": "all signals and target lengths, start or end", "why_tests_cant": "all pairs of lengths", "anchors": ["dsptoolbox/helpers/other.py:_pad_trim", "dsptoolbox/standard/pad_trim_methods.py:pad_trim"]}
{"id": "C25", "title": "Integer delay", "statement": "delay shifts exactly the requested channels by the requested number of samples with zeros in front, leaves the other channels' samples unchanged, gives every channel the same length, and two delays compose additively.", "quantifier": "all signals, channel subsets, delays and keep_length settings", "why_tests_cant": "all lengths, delays and subsets", "anchors": ["dsptoolbox/standard/latency_delay.py:delay"]}
{"id": "C26", "title": "append_signals keeps every channel", "statement": "append_signals returns the channels of all signals in order, each padded with zeros or trimmed to the length of the first one; for multi-band signals every output band is built from the matching bands.", "quantifier": "all lists of signals", "why_tests_cant": "all list sizes, lengths and channel counts", "anchors": ["dsptoolbox/standard/appending.py:append_signals"]}
{"id": "C27", "title": "Threshold trimming removes exactly the quiet ends", "statement": "trim_with_level_threshold keeps the span from the first to the last sample at which any channel reaches the threshold; everything outside is below it. If no sample reaches it the call raises.", "quantifier": "all signals and thresholds", "why_tests_cant": "all positions of the loud span", "anchors": ["dsptoolbox/standard/pad_trim_methods.py:trim_with_level_threshold"]}
{"id": "C28", "title": "Framing and overlap-add are inverse", "statement": "Cutting a signal into overlapping windowed frames and reconstructing by overlap-add returns the original samples wherever the window envelope exceeds the safety threshold, for every window, step and length.", "quantifier": "all windows, steps and signal lengths", "why_tests_cant": "all combinations of length, window and hop", "anchors": ["dsptoolbox/standard/_framed_signal_representation.py:_get_framed_signal", "dsptoolbox/standard/_framed_signal_representation.py:_reconstruct_framed_signal"]}
{"id": "C29", "title": "Frame count", "statement": "The number of frames together with the reported padding covers every sample and all frames fit inside the padded signal; without padding no frame leaves the signal, but the last complete frame is dropped whenever the hop divides the remaining length (witness given).", "quantifier": "all window lengths, steps and signal lengths", "why_tests_cant": "off-by-one cases over all residues", "anchors": ["dsptoolbox/helpers/other.py:_compute_number_frames"]}
{"id": "C30", "title": "Latency of a delayed copy is found exactly", "statement": "For any non-zero signal, any (also negative) delay and any non-zero gain, latency(delayed, original) returns the delay for every channel, swapping the arguments negates it, the returned correlation is the sign of the gain whenever the common part is not constant, and latency(delay(x, d), x) = d. In the single-signal form with three or more channels the values come back in reversed channel order (exact law and witness given).", "quantifier": "all non-zero signals, delays, channel counts", "why_tests_cant": "needs the strict Cauchy-Schwarz inequality for all signals", "anchors": ["dsptoolbox/standard/_standard_backend.py:_latency", "dsptoolbox/standard/latency_delay.py:latency", "dsptoolbox/helpers/latency.py:_get_correlation_of_latencies"]}
{"id": "C31", "title": "Spectrum frequency range selection", "statement": "Trimming a spectrum keeps a contiguous range of bins with their values, in order: in inclusive mode from the last bin not above the lower limit to the first bin not below the upper one (exactly the closed range when both limits are bins); in exclusive mode with limits on bins exactly the open range. It fails only if the lower limit is above every bin, nothing is selected, or fewer bins than channels remain. In exclusive mode the first in-range bin is lost when the lower limit is not a bin, and a trim failing for too few bins leaves frequencies and data of different length (witnesses given).", "quantifier": "all ascending frequency vectors and ranges", "why_tests_cant": "all positions of the bounds relative to the grid", "anchors": ["dsptoolbox/classes/spectrum.py:Spectrum.trim"]}
{"id": "C32", "title": "Linear interpolation of a spectrum", "statement": "Linear interpolation joins the chosen quantity (power, magnitude, or real and imaginary part) by straight lines: stored values come back on the grid, magnitudes stay between the neighbouring bins, outside the range the edge rule holds; resampling a magnitude spectrum on its own grid changes nothing; get_exact_value_at_frequency is the same line and refuses frequencies outside. Refuted with witnesses: complex output equals the stored complex data (false in the default Power domain), Extend repeats the complex edge value, Extend and Error work for several channels.", "quantifier": "all ascending grids, values and query points", "why_tests_cant": "continuum of query points", "anchors": ["dsptoolbox/classes/spectrum.py:Spectrum.get_interpolated_spectrum", "dsptoolbox/tools.py:get_exact_value_at_frequency"]}
{"id": "C33", "title": "Spectrum scaling conversions are consistent", "statement": "The conversion factor between two spectrum scalings, applied in the documented (squared when mixed) domain, turns data scaled with the first into data scaled with the second; conversions compose and invert.", "quantifier": "all pairs and triples of scalings, lengths, sampling rates, windows", "why_tests_cant": "49 pairs over a continuum of parameters", "anchors": ["dsptoolbox/standard/enums.py:SpectrumScaling.conversion_factor"]}
{"id": "C34", "title": "Sample format conversion", "statement": "convert_sample_representation maps every sample to equilibrium + span * position (position in the input range clipped to -1..1) of the target format, rounded towards zero, never outside the target range, monotonically; integer to float and back is the identity on equilibrium +- span, and so is changing the signedness at equal width. Defects, for all values concerned: the most negative signed code is changed; going to a wider signed format and back moves every sample other than 0 and +-span by one; byte input in float format raises AttributeError. Exact arithmetic, float rounding not included.", "quantifier": "all integer widths, signedness and sample values", "why_tests_cant": "2^32 codes times format pairs", "anchors": ["dsptoolbox/tools.py:convert_sample_representation"]}
{"id": "C35", "title": "24-bit packing round trip", "statement": "Packing values that fit 24 bits into bytes and unpacking them returns the same values, and unpacking bytes then packing them returns the same bytes, for signed and unsigned samples and both byte orders; three bytes per sample; other values are reduced modulo 2^24; lengths that are not a multiple of three are rejected.", "quantifier": "all integers in range, all byte strings with length a multiple of three, both byte orders", "why_tests_cant": "2^24 values per sample and arbitrary lengths", "anchors": ["dsptoolbox/helpers/bytes_conversion.py"]}
{"id": "C36", "title": "Compressor gain law", "statement": "The compressor's static curve is undefined (nan) exactly at the threshold of a hard knee; elsewhere it never exceeds the input level (downward) or never falls below it (upward), compresses level differences by a factor between 1/ratio and 1, and is exact outside the knee. Per-sample gains stay in (0,1] (downward) or [1,inf) (upward). A sample exactly on a hard knee turns the rest of its channel into nan, hence threshold 0 dB relative to peak turns every channel into nan. Gain reduction settles with the release time instead of the attack time. The mix and post-gain parameters have no effect on the output (refuted documentation).", "quantifier": "all thresholds, ratios, knee widths, attack/release coefficients and signals", "why_tests_cant": "real-valued curve and unbounded recursion", "anchors": ["dsptoolbox/effects/_effects.py:_compressor", "dsptoolbox/effects/_effects.py:_get_knee_func", "dsptoolbox/effects/effects.py:Compressor"]}
{"id": "C37", "title": "Digital delay is the feedback comb", "statement": "Without saturation DigitalDelay produces before peak restoration sum_k feedback^k * x[n-k*d] over the padded length; the effect keeps each non-silent channel's peak and only scales that sum; silent channels become nan; the result is longer than the input exactly when the delay exceeds half a sample. set_parameters with None always fails (documented: leaves unchanged), a refused feedback leaves the new delay stored, and callables are never accepted as saturation.", "quantifier": "all signals, delays and feedback factors", "why_tests_cant": "closed form for every length and number of echoes", "anchors": ["dsptoolbox/effects/effects.py:DigitalDelay"]}
{"id": "C38", "title": "Musical rhythm to frequency", "statement": "get_frequency_from_musical_rhythm and get_time_period_from_musical_rhythm are reciprocal for every accepted string; appending ' dotted' or ' 3' scales by 2/3 or 3/2 for every string; the value is 60/bpm/length for the plain notes, which is the documented frequency bpm/60/length only at 60 beats per minute (refuted with a witness otherwise). The 32nd note is parsed as a triplet (refuted).", "quantifier": "all accepted names and tempi", "why_tests_cant": "string parsing with overlapping names", "anchors": ["dsptoolbox/effects/_effects.py:get_frequency_from_musical_rhythm"]}
{"id": "C39", "title": "Levinson-Durbin solves the Yule-Walker equations and is optimal", "statement": "The AR coefficients returned for an autocorrelation sequence satisfy every Yule-Walker equation and the reported error is the final prediction-error power; ValueError is raised only if a model of some order has a non-positive error power. On every signal that is not all zero and longer than the order the Yule-Walker estimate succeeds, and its residual energy is the smallest among all predictors of that order and equals length times the returned variance.", "quantifier": "all orders, autocorrelation sequences and signals", "why_tests_cant": "induction over the order with in-place updates from both ends; minimality over a continuum of predictors", "anchors": ["dsptoolbox/helpers/ar_estimation.py:_levison_durbin_recursion", "dsptoolbox/helpers/ar_estimation.py:_yw_ar_estimation", "dsptoolbox/transforms/transforms.py:lpc"]}
{"id": "C40", "title": "Time smoothing is range preserving", "statement": "time_smoothing refuses negative times and two zero times; otherwise it starts at the first sample, uses the rise factor exactly when the new sample lies above the last output, stays in the range of the input, moves towards the new sample without passing it, leaves constants unchanged, and its step response is 1-0.05^(n/(time*fs)).", "quantifier": "all inputs, sampling rates and times", "why_tests_cant": "unbounded length", "anchors": ["dsptoolbox/helpers/smoothing.py:_time_smoothing"]}
{"id": "C41", "title": "filter_signal touches exactly the selected channels", "statement": "filter_signal(channels=...) replaces exactly the selected channels (negative numbers count from the end) by their filtered version and passes on the others; a sampling-rate mismatch or channel number too large is rejected; the imaginary part of a complex signal is dropped.", "quantifier": "all signals, filters and channel selections", "why_tests_cant": "all selections and channel counts", "anchors": ["dsptoolbox/classes/filter_helpers.py:_filter_on_signal", "dsptoolbox/classes/filter.py:Filter.filter_signal"]}
{"id": "C42", "title": "Kautz weights fitted to a response are its projections on the taps", "statement": "KautzFilter.fit_coefficients_to_ir(ir) sets the weight of each tap to the inner product of ir with the impulse response of that tap over the length of ir (the tap's impulse response being get_ir with this weight 1 and the others 0), with real poles first and then two weights per pole pair; the poles stay unchanged.", "quantifier": "all accepted pole sets and all impulse responses with at least one sample", "why_tests_cant": "the time-reversal trick must hold for every length, pole set and response", "anchors": ["dsptoolbox/classes/kautz_filter.py:KautzFilter.fit_coefficients_to_ir", "dsptoolbox/classes/kautz_filter.py:KautzFilter.get_ir"]}
{"id": "C43", "title": "Autoregressive models are stable", "statement": "For every signal longer than the order (not all zero for Yule-Walker) the all-pole filter returned by the Yule-Walker and Burg estimators has all its poles strictly inside the unit circle; Burg never fails on such a signal and raises IndexError on shorter ones. For signals with channels or frames Burg returns length + 1 coefficient rows, zeros after the first order + 1. A negative zero-lag value passed directly is not refused and can give an unstable filter (witness given).", "quantifier": "all signals, orders and points of the closed unit disc", "why_tests_cant": "continuum of complex points and signals; induction over the order", "anchors": ["dsptoolbox/helpers/ar_estimation.py:_burg_ar_estimation", "dsptoolbox/helpers/ar_estimation.py:_yw_ar_estimation", "dsptoolbox/filterbanks/_filterbank.py:arma"]}
{"id": "C44", "title": "Band energy of a spectrum", "statement": "The energy between two bins is the trapezoid integral of the squared magnitudes of every channel; energies of adjacent bands add up, are never negative and grow with the band; without limits it is the total energy. A limit between two bins is counted on both sides, so energies do not add up there (witness given).", "quantifier": "all spectra, channels and limits", "why_tests_cant": "all grids and data; sums of any length", "anchors": ["dsptoolbox/classes/spectrum.py:Spectrum.get_energy"]}
{"id": "C45", "title": "Channels of a spectrum and their coherence", "statement": "Selecting channels of a spectrum without coherence returns exactly the selected columns; the power sum has the root of the summed squared magnitudes in every bin. With coherence stored, selecting another number of channels always fails, and the coherence does not follow its channel when channels are swapped or selected, nor its bins when trimmed (witnesses given).", "quantifier": "all spectra and channel lists, negative indices included", "why_tests_cant": "all channel lists and data", "anchors": ["dsptoolbox/classes/spectrum.py:Spectrum.sum_channels", "dsptoolbox/classes/_multichannel_data.py:MultichannelData.get_channels", "dsptoolbox/classes/_multichannel_data.py:MultichannelData.swap_channels"]}
{"id": "C46", "title": "Spectrum normalization and gain", "statement": "After normalizing a spectrum at a frequency inside its range every channel reads magnitude 1 there, for every interpolation domain; with a reference channel all channels are scaled by the same factor. Outside the range zero padding divides by zero, one padding changes nothing, and the Error rule refuses. A gain in dB scales the magnitudes of its channel by 10^(g/20).", "quantifier": "all spectra, frequencies, domains and gains", "why_tests_cant": "continuum of reference frequencies between bins", "anchors": ["dsptoolbox/classes/spectrum.py:Spectrum.normalize", "dsptoolbox/classes/spectrum.py:Spectrum.apply_gain"]}
{"id": "C47", "title": "FFT spectra obey Parseval and read physical values", "statement": "For every signal the one-sided power spectral density of Signal.get_spectrum integrates to the mean square of the (padded) signal, with or without a window (then weighted by the window energy); power spectra sum to it; the squared amplitude spectrum is the power spectrum; a cosine on a bin reads its RMS value at that bin and zero elsewhere. A constant reads its value in bin 0. The three FFT norms differ by exactly n and sqrt(n).", "quantifier": "all signals, FFT lengths, sampling rates, windows, cosine bins and phases", "why_tests_cant": "identity over all real signals and lengths", "anchors": ["dsptoolbox/classes/signal.py:Signal.get_spectrum", "dsptoolbox/helpers/spectrum_utilities.py:_scale_spectrum", "dsptoolbox/standard/enums.py:SpectrumScaling"]}
{"id": "C48", "title": "Welch spectra: total power, homogeneity, detrending", "statement": "With mean averaging and power scalings the Welch estimate is real and non-negative, scales with the square of the gain, integrates to the mean energy of the windowed frames over the window energy, and detrending empties bin 0. Refuted: the square of an amplitude-scaled estimate is not the power-scaled one (it lacks one scaling factor), the median estimate of a signal repeating one block grows with the number of frames instead of equalling the mean, and a mono signal not longer than the hop raises although the same signal in two channels works.", "quantifier": "all signals, windows, valid window lengths, overlaps and sampling rates", "why_tests_cant": "all real signals and every number of frames", "anchors": ["dsptoolbox/standard/_spectral_methods.py:_welch", "dsptoolbox/classes/signal.py:Signal.get_spectrum"]}
{"id": "C49", "title": "Cross-spectral matrices are Hermitian and positive semidefinite", "statement": "The Welch cross-spectral matrix is Hermitian in every bin for every scaling and average; with mean averaging and power scalings entry (i,j) is the scaled mean of X_i conj(X_j), the diagonal holds the Welch spectra of the channels and the matrix is positive semidefinite. The FFT matrix without scaling holds the products X_i conj(X_j). Refuted: with a power scaling its diagonal is not the power spectrum (the length is derived from the number of bins as bins//2+1), and with a stored window it always raises and leaves the scaling of the signal changed.", "quantifier": "all multichannel signals, windows, sizes, overlaps, scalings, test vectors", "why_tests_cant": "positive semidefiniteness ranges over all complex vectors", "anchors": ["dsptoolbox/standard/_spectral_methods.py:_csm_welch", "dsptoolbox/standard/_spectral_methods.py:_csm_fft", "dsptoolbox/classes/signal.py:Signal.get_csm"]}
{"id": "C50", "title": "Transfer function estimates: optimality, order, exactness", "statement": "With power scalings and mean averaging, compute_transfer_function returns for H1 the unique least-squares transfer function between the frame spectra; the coherence lies in [0,1], is the same in all modes, H1 = coherence*H2 = sqrt(coherence)*H3 and |H1|<=|H3|<=|H2|; a system multiplying every frame spectrum by h (in particular any gain) is found exactly by all modes with coherence 1. Refuted: with the default spectrum scaling of the input signal (FFTBackward, as with every amplitude scaling) H1 returns a square root of the system, e.g. 2 for a gain of 4.", "quantifier": "all input/output signals, channel pairings, windows, sizes, overlaps, scalings, bins", "why_tests_cant": "optimality and Cauchy-Schwarz range over all signals; the tests only check that the call runs", "anchors": ["dsptoolbox/transfer_functions/transfer_functions.py:compute_transfer_function", "dsptoolbox/standard/_spectral_methods.py:_welch"]}
{"id": "C51", "title": "Decibel conversion round trips, additivity and dynamic range", "statement": "from_db(to_db(x)) is |x| clipped from below at min_value, and to_db(from_db(y)) is y for every level the minimum does not clip; amplitude and power forms agree; gains in dB add as factors multiply. With dynamic_range_db the largest level is kept and everything lower than the range is raised to its lower end, whatever min_value is. The clipping does not avoid -inf for silence when a dynamic range is given.", "quantifier": "all arrays, levels, minimum values and dynamic ranges", "why_tests_cant": "identities between real functions over all values; the silent case only shows for all-zero arrays", "anchors": ["dsptoolbox/helpers/gain_and_level.py: from_db, to_db"]}
{"id": "C52", "title": "Normalisation and gains reach the level asked for", "statement": "Peak normalisation multiplies by one positive factor (per signal or per channel) and the loudest sample gets exactly the requested level, or full scale if the amplitude is constrained below it. The RMS variant sets the standard deviation, which is the RMS only for zero-mean data: otherwise the RMS ends above the requested level and constant channels become nan. Gains in dB add up for one gain or one per channel; a gain on a filter scales its output in every representation. Normalising or amplifying drops the imaginary part of complex signals. The crest factor is at least one; for a MultiBandSignal it is converted to dB twice.", "quantifier": "all signals, channel counts, levels, gains, filters and filter banks", "why_tests_cant": "holds for every signal; the failing cases need an offset, a complex signal or several bands", "anchors": ["dsptoolbox/helpers/gain_and_level.py: _rms, _normalize", "dsptoolbox/standard/gain_and_level.py: normalize, rms, apply_gain, crest_factor"]}
{"id": "C53", "title": "Fades only touch the fade regions and the time vector is what it should be", "statement": "fade multiplies each sample by the gain of the fade-in at its index and of the fade-out at its distance to the end, the gains rise from 0 (-100 dB) to 1, nothing gets louder and samples outside the fades are unchanged. Fades that are too long or not positive are refused. A logarithmic fade of one sample gives nan and of no sample raises, which the default length does for fewer than 40 samples. The time vector of n samples ends at n/fs, so that every entry but the first is late.", "quantifier": "all signals, fade types, lengths, sampling rates and sides", "why_tests_cant": "ranges over every length; the failures are at lengths of zero and one sample", "anchors": ["dsptoolbox/helpers/gain_and_level.py: _fade", "dsptoolbox/standard/gain_and_level.py: fade", "dsptoolbox/classes/signal.py: Signal.time_vector_s"]}
{"id": "C54", "title": "The activity detector splits the channel into two complementary parts", "statement": "The masks are complementary, and the channel can be put together again from the detected and the noise samples whenever both have at least two; a part with one sample makes the call fail and an empty part gives a signal without channels unless the amplitude is constrained. The level follows the release smoothing only: the attack time never has an effect, the first sample is never detected, and a full-scale signal with every other sample zero is never detected. Lower thresholds mark more; relative detection ignores the scale.", "quantifier": "all signals, channels, thresholds, attack and release times, pre-filters", "why_tests_cant": "the partition must hold for every mask; the ignored parameter and the missed signals are statements about all values", "anchors": ["dsptoolbox/standard/other.py: activity_detector", "dsptoolbox/standard/_standard_backend.py: _indices_above_threshold_dbfs"]}
{"id": "C55", "title": "Biquad designs keep their promises", "statement": "For every biquad type, every frequency strictly between zero and half the sampling rate, every gain in dB and every positive quality factor, Filter.biquad gives a filter whose poles lie strictly inside the unit circle and whose output is bounded by a constant times the largest input sample; its transfer function has the gain asked for exactly where the type promises it (peak, shelf, pass band end, corner), unity or zero where it promises that, never exceeds its top for the peaking, band pass, notch and first-order types, has constant magnitude for the all passes, and a cut of g dB undoes a boost of g dB for the peaking and shelving types. The Inverter type is an exception: it does not change the sign.", "quantifier": "all filter types, sampling rates, frequencies in (0, fs/2), gains, quality factors, query frequencies in [0, fs/2] and inputs of any length", "why_tests_cant": "the designs form a four-parameter continuum; a wrong sign or a missing square root shows up only for some of the parameters, and stability is a statement about every input length", "anchors": ["dsptoolbox/classes/filter_helpers.py:_biquad_coefficients", "dsptoolbox/classes/filter.py:Filter.biquad, Filter.ba, Filter.get_transfer_function"]}
{"id": "C56", "title": "Room acoustic descriptors follow their definitions from the start of the response", "statement": "find_ir_start returns, for every channel, the last sample before the peak that lies below the threshold relative to the peak (or the first sample). D50 is the share of the energy within 50 ms of that start and lies between 0 and 1, C80 is the level of the early over the late energy, both are unchanged by a gain of either sign and by silence in front of the response, and every channel has its own value. The centre time is not the centre of gravity of the energy: it is too large by n/(n-1), n being the number of regarded samples. For multi-band signals the choice not to trim has no effect.", "quantifier": "all impulse responses, sampling rates, thresholds, gains, amounts of leading silence, channel counts and trimming indices", "why_tests_cant": "must hold for every response and gain; the stretched time vector is a small relative error that a tolerance hides", "anchors": ["dsptoolbox/room_acoustics/room_acoustics.py: find_ir_start, descriptors", "dsptoolbox/room_acoustics/_room_acoustics.py: _find_ir_start, _d50_from_rir, _c80_from_rir, _ts_from_rir"]}
{"id": "C57", "title": "Rooms obey Sabine's formula and list every mode once", "statement": "Every Room satisfies Sabine's formula with an absorption coefficient in (0, 1], from either of the two values, and the two conversions are inverse to each other; giving both never works (AttributeError). A ShoeboxRoom has the volume and the surface of the box however it is turned. get_room_modes returns every mode number up to the order except the constant mode exactly once, in ascending order of frequency, the lowest one belonging to the longest side. The analytical transfer function is unchanged when source and receiver are swapped or the room is mirrored. Detailed absorption: per band, area-weighted sum over walls, Sabine per band, mean coefficient between the smallest and the largest, equal coefficients giving the same room. Not kept: check_if_in_room accepts negative coordinates, Schroeder's frequency and the critical distance are not updated, and the caller's dictionary is changed so that it cannot be used again. The analytical transfer function is the sum over the modes with weights that are their mean squares over the room.", "quantifier": "all volumes, areas, dimensions, absorption coefficients, reverberation times, orders, positions, frequencies and absorption dictionaries", "why_tests_cant": "continuous parameters and unbounded mode orders; the stale values and the changed argument only show in sequences of calls", "anchors": ["dsptoolbox/room_acoustics/_room_acoustics.py: Room, ShoeboxRoom.check_if_in_room, get_room_modes, get_analytical_transfer_function, add_detailed_absorption"]}
{"id": "C58", "title": "Synthetic room impulse responses are the sum over the image sources", "statement": "If the images of a cell arrive at different samples, the response is the sum over all image sources up to the order of the reflection factors over 4 pi times the distance, each at the sample nearest to its arrival; it is reciprocal, has at least the free-field level at the direct sound; nothing arrives before the direct sound, no sample is negative and more absorption never makes a sample larger. In general images are lost: of those of a cell that share a sample only the last counts. The call succeeds exactly if all images fall within the vector, which holds for cubes with ordinary reverberation times and fails with IndexError for every source and receiver in a long room. Each first-order image carries the reflection factor of the wall it is mirrored at (south, west and floor at the origin), while the detailed absorption gives the four upright walls each other's areas.", "quantifier": "all room dimensions, absorption coefficients, source and receiver positions, reverberation times, orders and sampling rates", "why_tests_cant": "the losses occur only for positions with coinciding arrival samples, and the failure depends on the proportions of the room", "anchors": ["dsptoolbox/room_acoustics/_room_acoustics.py:_generate_rir", "dsptoolbox/room_acoustics/room_acoustics.py:generate_synthetic_rir", "dsptoolbox/room_acoustics/_room_acoustics.py:add_detailed_absorption"]}
{"id": "C59", "title": "Short-time Fourier transform and back", "statement": "With padding, a percentage that gives a whole positive number of overlapping samples, a window whose shifted squares nowhere add up to less than 1e-4, an FFT length of at least the window length and a scaling without physical units, istft(stft(x)) is x exactly (followed by zeros when no original signal is passed). Unpadded, all samples from the overlap on are recovered. Known failures are exact laws: percentages rounded up deliver the signal one sample late, percentages rounded down place the frames one sample too close, zero overlap with padding returns zeros, unpadded beginnings are attenuated, amplitude scalings lose 3 dB of the constant part, power scalings cannot be inverted, and the frequency vector ignores the FFT length.", "quantifier": "all signals, windows, accepted window lengths, overlap percentages, FFT lengths and scalings", "why_tests_cant": "the identity must hold for every signal, window and overlap, and the failures depend on arithmetic of the percentage that a few cases do not show", "anchors": ["dsptoolbox/standard/_spectral_methods.py:_stft", "dsptoolbox/transforms/transforms.py:istft", "dsptoolbox/standard/_framed_signal_representation.py:_reconstruct_framed_signal"]}
{"id": "C60", "title": "Signal-to-distortion and signal-to-noise ratios", "statement": "si_sdr returns per channel the level of the projection of the modified signal on the target over the level of the rest (infinite for exact multiples of the target, minus infinity for orthogonal signals, nan for a silent target), it does not change under any non-zero gain of either signal, one target channel serves all modified channels, and unequal sampling rates, lengths or channel counts are refused. snr returns the ratio of the standard deviations in dB, so a constant offset in either signal does not count although it has energy; gains enter as their level difference and exchanging the signals changes the sign.", "quantifier": "all target, modified, signal and noise arrays, gains and channel counts", "why_tests_cant": "the projection identity and the invariance hold for every signal pair and gain; the degenerate results depend on exact zeros", "anchors": ["dsptoolbox/distances/distances.py:si_sdr", "dsptoolbox/distances/distances.py:snr", "dsptoolbox/distances/_distances.py:_sisdr", "dsptoolbox/distances/_distances.py:_snr"]}
{"id": "C61", "title": "Log-spectral distance and Itakura-Saito measure", "statement": "On positive power spectra log_spectral is a pseudometric (non-negative, symmetric, triangle inequality) and zero exactly when the spectra agree on the compared bins, or are proportional there with energy normalisation, if at least two bins are compared; the normalisation makes it independent of gains; without it a level difference of g dB gives |g| times the root of the bandwidth. The bin nearest to the upper limit is never compared, and a range with one bin always gives zero. itakura_saito mixes the decimal logarithm into the measure: it is the true measure plus (1 - 1/ln 10) times the integrated natural log ratio and is negative for spectra that differ, with and without normalisation.", "quantifier": "all positive one-channel spectra, frequency vectors, ranges, spacings and gains", "why_tests_cant": "metric axioms quantify over triples of spectra, and the sign of the measure cannot be settled by sampling", "anchors": ["dsptoolbox/distances/distances.py:log_spectral", "dsptoolbox/distances/distances.py:itakura_saito", "dsptoolbox/distances/_distances.py:_log_spectral_distance", "dsptoolbox/distances/_distances.py:_itakura_saito_measure"]}
{"id": "C62", "title": "Frequency-weighted segmental SNR", "statement": "For every pair of band signals the value is nan or lies inside the requested range. It does not change under a gain of the reference nor under arbitrary non-zero gains of the single bands of the other signal, so a wrong balance between bands is not noticed. A rescaled copy of the reference reaches exactly the upper end of the range when no bin is more than 600 minus that value dB below its frame. One silent frame in one band of either signal makes the whole value nan.", "quantifier": "all band signals, windows, hop sizes, ranges, exponents and gains", "why_tests_cant": "the bounds and invariances hold for all signals, frames and bands; the nan depends on any single silent frame", "anchors": ["dsptoolbox/distances/distances.py:fw_snr_seg", "dsptoolbox/distances/_distances.py:_fw_snr_seg_per_channel"]}
{"id": "C63", "title": "Linkwitz-Riley filter bank", "statement": "For every signal, the bands of a Linkwitz-Riley bank with crossovers of order one, two or four at frequencies inside (0, fs/2) add up to the input passed through a cascade of stable allpass systems: no frequency is boosted or attenuated, and at no time has more energy come out than went in. First-order crossovers add up to the input itself. At each crossover both branches have a quarter of the power (half of it for order one). With stored states a signal may be cut into blocks anywhere as long as there are at most two crossovers; with three the block boundaries change the output. With stored states silence produces sound at the start of the stream, while a constant one is reproduced exactly.", "quantifier": "all signals, crossover frequencies inside the band, orders 1, 2 and 4 (level, allpass, energy), any number of crossovers, all block splittings", "why_tests_cant": "the cancellation must hold for every frequency, every signal and every number of crossovers, and the streaming law for every way of cutting the signal", "anchors": ["dsptoolbox/filterbanks/_filterbank.py:LRFilterBank", "dsptoolbox/filterbanks/_filterbank.py:_get_2nd_order_linkwitz_riley", "dsptoolbox/filterbanks/filterbanks.py:linkwitz_riley_crossovers"]}
{"id": "C64", "title": "Quadrature mirror filter crossover", "statement": "For every FIR prototype of at least four coefficients and every signal with an even sampling rate, splitting into two half-rate bands and reconstructing gives, away from the ends, the input filtered by the odd samples of twice h*h: the aliasing cancels exactly. If h*h has one half in its centre and nothing else at odd places the signal comes back exactly, with a delay that depends on the prototype's length modulo four and on the parity of the signal's length. With a symmetric prototype of odd length a tone at a quarter of the sampling rate is lost completely; prototypes of up to three coefficients (such as the Haar filter) reconstruct an empty signal; odd sampling rates are refused.", "quantifier": "all FIR prototypes, signals, lengths and even sampling rates; one channel; parallel mode with down- and upsampling", "why_tests_cant": "cancellation of aliasing is an identity over all signals and prototypes; the delay depends on arithmetic of lengths", "anchors": ["dsptoolbox/filterbanks/_filterbank.py:QMFCrossover", "dsptoolbox/filterbanks/_filterbank.py:BaseCrossover.reconstruct_signal", "dsptoolbox/filterbanks/filterbanks.py:qmf_crossover"]}
{"id": "C65", "title": "Complementary FIR filter", "statement": "For every FIR filter of odd length, of linear phase or not, and every signal, the outputs of the filter and of its complement add up to the input delayed to the filter's first largest coefficient. For even lengths the sum is the windowed sinc of that length whatever the prototype. The complement of a linear-phase filter need not have linear phase.", "quantifier": "all FIR coefficients and signals", "why_tests_cant": "an identity over all coefficients, signals and times", "anchors": ["dsptoolbox/filterbanks/filterbanks.py:complementary_fir_filter"]}
{"id": "C66", "title": "Grids, point sets and microphone arrays", "statement": "The distance matrix holds the Euclidean distances and is a metric. Every point of a rectangular, box or line grid lies where its lines say, and a map reshaped by the grid has at [i, j(, k)] the value of exactly the point with these coordinates. The nearest point, the extent, the aperture, the smallest distance and the centre of an array are what their names say, the Helmholtz number and the frequency convert into each other, and the answers do not depend on the earlier queries. Grids with a line of a single value raise; an array whose coordinates were set again keeps the old aperture.", "quantifier": "all point sets, lines, maps and histories of calls", "why_tests_cant": "statements over all coordinates and all orders of queries", "anchors": ["dsptoolbox/beamforming/_beamforming.py:BasePoints", "dsptoolbox/beamforming/beamforming.py:Regular2DGrid", "dsptoolbox/beamforming/beamforming.py:Regular3DGrid", "dsptoolbox/beamforming/beamforming.py:LineGrid", "dsptoolbox/beamforming/beamforming.py:MicArray"]}
{"id": "C67", "title": "Steering vectors", "statement": "For every array and focus point away from the microphones, the inverse and true-power vectors have response one to a monopole at the focus point, the true-power vector amplifies uncorrelated noise least among all vectors of response one, the classic and true-location vectors have squared norm 1/M and respond at least as strongly to the source when focused on it as on any other point. The latter fails for the inverse and true-power vectors.", "quantifier": "all arrays, wave numbers, focus points and sources", "why_tests_cant": "optimality over all vectors and points", "anchors": ["dsptoolbox/beamforming/beamforming.py:SteeringVector"]}
{"id": "C68", "title": "Delay-and-sum map in the frequency domain", "statement": "The map integrates the bins nearest to the limits of the fractional octave band. It is nonnegative for positive semidefinite cross-spectral matrices, hence for Welch matrices of any recording, linear in the matrix, shows the power of a single source at its place with the inverse and true-power vectors, has its maximum there with the classic and true-location vectors, and does not depend on the diagonal if it is removed.", "quantifier": "all arrays, grids, bands, matrices and recordings", "why_tests_cant": "statements over all matrices and geometries", "anchors": ["dsptoolbox/beamforming/beamforming.py:BeamformerDASFrequency"]}
{"id": "C69", "title": "Minimum variance, functional and orthogonal beamforming", "statement": "The minimum variance map is the least power passed by a vector of response one; the functional map lies between zero and the delay-and-sum map, equals it for exponent one and narrows a single source by the power of the squared correlation; the orthogonal map holds the image of each eigenvalue at its peak, lies below the delay-and-sum map and has at most as many values as eigenvalues. Two eigenvalues with one peak overwrite each other; the matrix of an unaveraged spectrum has no inverse.", "quantifier": "all matrices, vectors, exponents and numbers of eigenvalues", "why_tests_cant": "optimality and inequalities over all matrices", "anchors": ["dsptoolbox/beamforming/beamforming.py:BeamformerMVDR", "dsptoolbox/beamforming/beamforming.py:BeamformerFunctional", "dsptoolbox/beamforming/beamforming.py:BeamformerOrthogonal"]}
{"id": "C70", "title": "CLEAN-SC", "statement": "In every round the dirty map is the delay-and-sum map of the degraded matrix, which stays Hermitian; the result is the sum of the peaks found, times the safety factor, at their places; the rounds end after the given number or with the first round in which the norm of the matrix has not decreased. At most as many points as rounds have a value. With the diagonal kept a round removes more than the safety factor times the peak: the value left is the peak times 1 - phi (1 + q) with q >= 0 and may be negative.", "quantifier": "all Hermitian matrices, steering vectors, safety factors and numbers of rounds", "why_tests_cant": "an invariant of a loop of any length over all matrices", "anchors": ["dsptoolbox/beamforming/_beamforming.py:_clean_sc_deconvolve", "dsptoolbox/beamforming/beamforming.py:BeamformerCleanSC"]}
{"id": "C71", "title": "Fractional delay", "statement": "The output of fractional_delay at the time k is the Kaiser-windowed sinc interpolation of the input at k minus the delay, with the order + 1 samples around it, for every order, delay, selection of channels and signal; channels not chosen are padded with zeros. A whole number of samples delays exactly and, with keep_length, equals the function delay. The delay is linear and time invariant, zero returns the signal, negative delays, delays longer than a kept length and invalid channels are refused.", "quantifier": "all signals, delays, orders, windows and channel selections", "why_tests_cant": "an identity over all delays and signals", "anchors": ["dsptoolbox/standard/latency_delay.py:fractional_delay", "dsptoolbox/standard/_standard_backend.py:_fractional_delay_filter", "dsptoolbox/standard/_standard_backend.py:_kaiser_window_fractional"]}
{"id": "C72", "title": "Monopole sources, mixtures and time-domain beamforming", "statement": "A source makes heard at each microphone its signal delayed by the distance and divided by one plus the distance; a mixture is the sum over the sources, cut to the shortest. The time-domain beamformer gives at each grid point the mean of the channels delayed to the longest path and weighted by the distances; focused on a source it gives the emitted signal times the mean of d / (1 + d). Mixing removes the first source from the caller's list: the next call with the same list gives the mixture of the remaining sources and finally raises.", "quantifier": "all arrays, grids, sources, signals and sequences of calls", "why_tests_cant": "sums over any number of microphones and sources, and histories of calls", "anchors": ["dsptoolbox/beamforming/beamforming.py:MonopoleSource", "dsptoolbox/beamforming/beamforming.py:mix_sources_on_array", "dsptoolbox/beamforming/beamforming.py:BeamformerDASTime"]}
{"id": "C73", "title": "Spectral deconvolution", "statement": "Deconvolving an output by an input of the same length (amplitude scaling, FFT length equal to the signal length) gives per channel the unique response whose circular convolution with the input is the output, or nan exactly when a bin of the input's spectrum is zero. With padding, an output that is the linear convolution with a response of at most length + 1 taps gives back that response. With regularisation each bin of the plain quotient is multiplied by a gain in (0, 1] that is one in the passband and |X|^2 / (|X|^2 + 10^1.5) outside the range; two limits are widened by half an octave on either side up to half the sampling rate, and without limits the range runs from the first to the last bin of the first input channel above the threshold. Deviations: a length whose fast FFT length differs gives a wrong response, spectra with different scalings give a wrong gain, the bin at half the rate is always attenuated, and the first channel's range is used for all channels.", "quantifier": "all recordings, lengths, channel counts, sampling rates, thresholds and ranges", "why_tests_cant": "equality and uniqueness for all signals; the gains hold for every bin of every length", "anchors": ["dsptoolbox/transfer_functions/transfer_functions.py:spectral_deconvolve", "dsptoolbox/transfer_functions/_transfer_functions.py:_spectral_deconvolve", "dsptoolbox/helpers/windows.py:calculate_tukey_like_window", "dsptoolbox/helpers/spectrum_utilities.py:_find_frequencies_above_threshold"]}
{"id": "C74", "title": "Minimum-phase responses", "statement": "On the padded length, min_phase_ir gives the unique response with the magnitudes of the input whose logarithmic spectrum is the transform of a real sequence that vanishes at negative times; the result is its beginning, and not a number exactly when a bin is zero. Energy never grows. Inverting, reversing or delaying the signal does not change the result, a gain acts by its absolute value, applying it again changes nothing, and a cascade gives the convolution. With alpha the weighted result is the minimum-phase response of the weighted signal. minimum_phase returns the frequencies up to half the rate and the phases of this response, and the method from magnitudes gives the same response. Deviations: the mode for symmetric responses always raises, and cutting to the original length changes even signals that are already minimum phase.", "quantifier": "all signals, lengths, channel counts, padding factors, gains and weights", "why_tests_cant": "uniqueness and invariances hold for all signals and lengths; zero bins are rare inputs", "anchors": ["dsptoolbox/helpers/minimum_phase.py:_get_minimum_phase_spectrum_from_real_cepstrum", "dsptoolbox/transfer_functions/transfer_functions.py:min_phase_ir", "dsptoolbox/transfer_functions/transfer_functions.py:minimum_phase", "dsptoolbox/transfer_functions/transfer_functions.py:min_phase_from_mag", "dsptoolbox/standard/_standard_backend.py:_minimum_phase"]}
{"id": "C75", "title": "Group delay is the negative derivative of the phase", "statement": "The analytic group delay of a filter (numerator and denominator coefficients) at each reported frequency is minus the derivative of any differentiable phase of its frequency response, in seconds, and 0 where the response is zero. Cascades add their delays, a delay of s samples adds s samples, reversed taps mirror the delay and (anti)symmetric taps have the constant delay of their middle. group_delay of a signal with an even number of samples satisfies this at the frequencies it returns; the numerical method returns the difference quotient of the unwrapped phase. Refuted cases: odd lengths (the values belong to other frequencies than those returned), signals of exactly one second (delays 2 pi times too large), impulses in the second half (negative delays in the numerical method).", "quantifier": "all coefficient lists, all numbers of frequencies, all sampling rates, all phases; for the numerical method all signals whose phase steps stay below half a turn", "why_tests_cant": "Relates the output to a derivative at every frequency of every filter; the existing tests compare a few filters with scipy at one even length.", "anchors": ["dsptoolbox/classes/filter_helpers.py:_group_delay_filter", "dsptoolbox/standard/_standard_backend.py:_group_delay_direct", "dsptoolbox/transfer_functions/transfer_functions.py:group_delay"]}
{"id": "C76", "title": "Cepstra, analytic signals, mid/side conversion and the DFT at arbitrary frequencies", "statement": "The complex cepstrum of a channel is finite exactly when no DFT bin vanishes, and from_complex_cepstrum gives the channels back (divided by the peak, with that scale factor recorded, when the peak exceeds 1). The real cepstrum is real, symmetric, determined by the log magnitudes, and additive under circular convolution, which the complex one is not. hilbert keeps the signal as real part, removes all negative frequencies, doubles the positive ones, is determined by this, and turns cosines into sines; both parts of an amplitude-constrained signal are rescaled together when one exceeds 1, so time_data is then not the signal. stereo_mid_side followed by its inverse is the identity; in the other order an amplitude-constrained signal can lose level. dft gives the defining sum at each requested frequency, equals the FFT on its bins, is periodic in fs and conjugate symmetric.", "quantifier": "all channel counts, lengths (even and odd), real samples, amplitude constraint settings, sampling rates and query frequencies", "why_tests_cant": "the laws hold for every length and sample value, and fail only on particular inputs (vanishing bins, phase wraps, imaginary parts above 1)", "anchors": ["dsptoolbox/transforms/transforms.py:cepstrum", "dsptoolbox/transforms/transforms.py:from_complex_cepstrum", "dsptoolbox/transforms/transforms.py:hilbert", "dsptoolbox/transforms/transforms.py:stereo_mid_side", "dsptoolbox/transforms/transforms.py:dft", "dsptoolbox/transforms/_transforms.py:_dft_backend"]}
{"id": "C77", "title": "Laguerre transform, warping of signals and warping of filters", "statement": "laguerre keeps the number of samples and never gains energy: it loses exactly the energy left in the allpass chain, and the transform with the negated factor is its adjoint; going back with it leaves an error bounded by the lost energy, which is nonzero for an impulse of any length and any nonzero factor (documented as exact inversion). Factor 0 is the identity. warp spreads sample k over the response of k cascaded allpass filters, i.e. equals what a WarpedFIR with the samples as taps answers to an impulse; it is linear, factor 0 is the identity, and the allpass has one sample of group delay exactly at arccos(lambda). De-warping with the negated factor does not restore the signal, and total_length can only shorten it. The bark and erb factors are admissible for every sampling rate, but differ from the cited formulas (kHz versus Hz) at every sampling rate. warp_filter yields exactly the given transfer function at the substituted point times a constant, preserves stability and minimum phase, is undone by the negated factor, and does change the gain at 0 Hz although documented otherwise.", "quantifier": "all lengths, channel counts, real samples, factors in ]-1, 1[, sampling rates, strings, zeros, poles and gains", "why_tests_cant": "energy, stability and inversion laws range over all signals, factors and pole-zero sets; the truncation loss and the gain change vary with each", "anchors": ["dsptoolbox/transforms/transforms.py:laguerre", "dsptoolbox/transforms/transforms.py:warp", "dsptoolbox/transforms/transforms.py:warp_filter", "dsptoolbox/transforms/_transforms.py:_warp_time_series", "dsptoolbox/transforms/_transforms.py:_get_warping_factor"]}
{"id": "C78", "title": "Mel scale and filter bank, pitch and chroma bands, frequency weighting", "statement": "Hz/mel conversion is a strictly increasing bijection. mel_filterbank places its corners on the bins nearest to points evenly spaced in mel, its triangles lie in [0, 1], vanish outside their corners, reach 1 at the centre and add up to exactly 1 between the first and last centre; with normalisation every band sums to 1, except the bands with an empty triangle, which are nan (refuting the documented area normalisation). A band of the log mel spectrogram lies between the smallest and the largest level of the frame. In chroma_stft every frequency in the MIDI range belongs to exactly one pitch and its octave to the same chroma, so that no energy is lost or counted twice. A and C weights are 0 dB at the bin nearest to 1 kHz, zero only at 0 Hz, and their ratios do not depend on the frequency vector.", "quantifier": "all ascending frequency vectors, ranges, band counts, power spectra, tunings and compressions", "why_tests_cant": "partition of unity, uniqueness of the pitch band and the empty-band condition hold or fail depending on every choice of bins and bands", "anchors": ["dsptoolbox/transforms/transforms.py:mel_filterbank", "dsptoolbox/transforms/transforms.py:log_mel_spectrogram", "dsptoolbox/transforms/transforms.py:chroma_stft", "dsptoolbox/transforms/_transforms.py:_pitch2frequency", "dsptoolbox/helpers/frequency_conversion.py:_hz2mel", "dsptoolbox/helpers/frequency_conversion.py:_mel2hz", "dsptoolbox/helpers/frequency_conversion.py:_frequency_weightning"]}
{"id": "C79", "title": "Dirac impulses", "statement": "dirac(length, fs, delay, channels) returns, in every channel, exactly 1 at the delay and 0 elsewhere, so that its spectrum has magnitude 1 at every bin and exactly the phase of that delay; it refuses exactly the arguments outside their documented domain. Refuted cases: with more channels than samples the result is transposed (one channel is constantly 1, the others silent), and a single sample in one channel raises an IndexError.", "quantifier": "all lengths, delays, channel counts and sampling rates", "why_tests_cant": "the orientation heuristic of the signal class makes the result depend on the relation of length and channel count", "anchors": ["dsptoolbox/generators/generators.py:dirac", "dsptoolbox/classes/filter_helpers.py:_impulse"]}
{"id": "C80", "title": "Chirps sweep the requested range", "statement": "A chirp is, in every channel, the sine of a phase whose derivative is the linear or exponential sweep from the lower to the upper frequency, brought to the requested peak level by one factor, faded by 5 % of the length at both ends and followed by the padding. A synchronised chirp lasts a whole number of cycles times ln(f2/f1)/f1, the nearest to the requested length, and its harmonics are coherent: delaying it by L ln h multiplies its phase by h up to whole turns, for every order h. Refuted: on the clock of the returned signal the sweep runs too fast by the factor length*fs/(l-1) and ends above the range (a chirp from f to f is not a tone of f Hz); a logarithmic chirp with equal frequencies is nan; a synchronised chirp ignores phase_offset, does not in general end with phase 0 and fails for short lengths.", "quantifier": "all ranges, lengths, sampling rates, levels, fades, paddings, phases and channel counts", "why_tests_cant": "the sweep law concerns every sample and every parameter choice, and coherence holds for every harmonic order and time", "anchors": ["dsptoolbox/generators/generators.py:chirp", "dsptoolbox/generators/_generators.py:_sync_log_chirp", "dsptoolbox/helpers/gain_and_level.py:_normalize", "dsptoolbox/helpers/gain_and_level.py:_fade"]}
{"id": "C81", "title": "The oscillator is band-limited", "statement": "The oscillator returns the Fourier series of the sine, square, sawtooth or triangle wave with exactly the harmonics strictly below the cutoff (by default fs // 2), each with its textbook coefficient, so that no partial lies at or above half the sampling rate; the result is brought to the peak level, faded and padded. With a whole number of samples per period it repeats, and sine, square and triangle change sign after half a period. Refuted: an accepted cutoff at or below the fundamental gives a signal of nan for every wave but the sine.", "quantifier": "all frequencies, sampling rates, cutoffs, phases, lengths, levels, fades and channel counts", "why_tests_cant": "the set of harmonics depends on the ratio of cutoff and fundamental, with a strict bound that a test grid misses", "anchors": ["dsptoolbox/generators/generators.py:oscillator"]}
{"id": "C82", "title": "Noise has the requested colour", "statement": "Noise comes from a sequence whose spectrum has exactly the drawn phases (zero at 0 Hz and half the sampling rate) and the drawn magnitudes times the colour: power f^(-beta), with white, pink, red, blue and violet equal to beta = 0, 1, 2, -1, -2 and grey the inverse A-weighting, from the bin nearest to 15 Hz on; it has no mean. It is brought to the peak level, faded and padded. Refuted: white noise is not flat (the bins below 15 Hz are multiplied by 1e-20), and pink, red or positive-beta noise of at most 1/30 s is nan.", "quantifier": "all random draws, noise types, lengths, sampling rates, levels, fades, paddings and channel counts", "why_tests_cant": "the signal is random: the law must hold for every draw, and the bin split depends on length and sampling rate", "anchors": ["dsptoolbox/generators/generators.py:noise"]}
{"id": "C83", "title": "Windows with flanks on impulse responses", "statement": "window_ir returns, for every channel, the response seen from a start position through a window with values in [0, 1] (rising flank, ones, falling flank of the lengths the arguments ask for), zero outside of the response; the peak keeps its value at the requested offset behind the left flank, the returned window and start positions are the ones used, and the rate and level are kept. window_ir_tukey multiplies every channel with the same window and leaves the samples between the flanks as they are. Refuted: without adaptation a peak earlier than the offset is placed at the wrong position and may be multiplied by zero; with adaptation a response shorter than the offset raises; a flank ratio of two or more leaves no right flank; the largest accepted offset can put the peak outside of the window.", "quantifier": "all responses, lengths, constant parts, offsets, ratios, window types, channel counts and peak positions", "why_tests_cant": "position, padding and trimming interact; each combination of peak position, length, offset and flanks is another branch", "anchors": ["dsptoolbox/transfer_functions/transfer_functions.py:window_ir,window_ir_tukey", "dsptoolbox/transfer_functions/_transfer_functions.py:_window_this_ir_tukey", "dsptoolbox/helpers/windows.py:calculate_tukey_like_window"]}
{"id": "C84", "title": "Windows centred on the peak of an impulse response", "statement": "window_centered_ir returns a section of every channel times a symmetric window whose middle lies on the peak; the peak is inside of the section and keeps its value. Exact position of the section for every peak position, odd and even lengths. Refuted: an even response whose peak lies half a window before its end raises; an even window longer than the response with the peak at its middle is replaced by its first value (silence for Hann); the reported start is that of the reversed response; short responses with a late peak are padded in front and not at the end.", "quantifier": "all responses, peak positions, window lengths, symmetric window types and channel counts", "why_tests_cant": "the failing cases are single combinations of length parity and peak position out of all", "anchors": ["dsptoolbox/transfer_functions/transfer_functions.py:window_centered_ir", "dsptoolbox/transfer_functions/_transfer_functions.py:_window_this_ir"]}
{"id": "C85", "title": "Separation of the harmonics of an exponential sweep", "statement": "The times at which the harmonics of a response measured with an exponential sweep occur are those by which the sweep has to be moved to become m times as high: m times its phase is the moved phase plus a constant. Separating the harmonics cuts the response, turned so that its peak is at sample 1, into consecutive pieces without gap or overlap, one per order from 2 on; each piece contains the sample nearest to its own harmonic and none of the others, and starts before it by the given part of the distance to the next order. (Refuted in one case: when a harmonic falls before the first sample the bounds of its piece are counted from the end, and the call fails for all orders.)", "quantifier": "every range, length of the sweep, number of harmonics, offset, and every single-channel response long enough to hold the harmonics", "why_tests_cant": "the positions depend on logarithms, truncation of negative numbers and a compensating rotation by one sample; a test with a few orders cannot settle that no sample is lost or given twice for every range, length and offset", "anchors": ["dsptoolbox/transfer_functions/transfer_functions.py:harmonics_from_chirp_ir", "dsptoolbox/transfer_functions/_transfer_functions.py:_get_chirp_rate", "dsptoolbox/transfer_functions/_transfer_functions.py:_get_harmonic_times"]}
{"id": "C86", "title": "Conversion between impulse responses and FIR filters", "statement": "A channel of an impulse response becomes the FIR filter whose taps are its samples, and filtering any signal with it is the convolution with that channel; all channels become a filter bank. An FIR filter becomes the response made of its taps, a bank one channel per filter, zero-padded to the longest. Both conversions undo each other when no value exceeds one. IIR filters and banks with several sampling rates are refused, a single denominator coefficient is divided out. (Refuted: a tap above one makes the response lose the gain without reporting the factor; a one-tap filter raises; a bank with more filters than taps comes back transposed.)", "quantifier": "every response with any number of channels, every channel index from either end, every list of taps and every bank", "why_tests_cant": "the round trip depends on the amplitude constraint, on the orientation rule of the time data and on shapes; a test fixes one shape and level", "anchors": ["dsptoolbox/transfer_functions/transfer_functions.py:ir_to_filter", "dsptoolbox/transfer_functions/transfer_functions.py:filter_to_ir", "dsptoolbox/classes/filter.py:Filter.from_ba", "dsptoolbox/classes/filter.py:Filter.ba", "dsptoolbox/classes/filter.py:Filter.is_iir", "dsptoolbox/classes/impulse_response.py:ImpulseResponse.from_time_data"]}
{"id": "C87", "title": "The average of impulse responses is the mean of the aligned channels", "statement": "average_irs of a response with several channels: in the time domain, and without normalisation, the result is the mean of the channels delayed to the largest latency (so delayed copies of one response average to the latest copy); otherwise each bin of the result has the mean magnitude and the mean unwrapped phase of the channels. Identical channels give that channel in both modes. With normalisation all channels should be brought to the energy of the first one: instead only the channel with the largest latency is changed, it is multiplied by the ratio of the energies (not divided by its root), and in the spectral mode nothing is normalised. For lengths which are not products of 2, 3 and 5 the spectral mode returns another response even for identical channels, and channels with opposite signs at 0 Hz lose that component.", "quantifier": "all responses with at least two channels, all whole-sample latency differences, all window functions of the fractional delay, all flags, all lengths", "why_tests_cant": "The tests check one length and do not compare energies; the law must hold for all channels, latencies and lengths.", "anchors": ["dsptoolbox/transfer_functions/transfer_functions.py: average_irs", "dsptoolbox/standard/latency_delay.py: fractional_delay", "dsptoolbox/classes/signal.py: Signal.get_spectrum"]}
{"id": "C88", "title": "Frequency-dependent windowing sees each bin through its own gaussian window", "statement": "window_frequency_dependent: bin k > 0 of the result is the DFT bin of the response multiplied by a gaussian window centred on the largest sample of the channel, whose level is the given one after the given number of periods of the bin frequency (rounded to samples). Scaling the response scales the result, a delay turns every bin by the phase of the delay, and with many cycles the result tends to the plain spectrum with an explicit bound. Contrary to what a user expects the bin at 0 Hz is always zero, so that an impulse loses its mean; the sign of the number of cycles is ignored and zero cycles give nan; responses with more channels than bins and levels which are not negative are refused.", "quantifier": "all responses of at least two samples, all channels, sampling rates, cycles, levels, delays and scalings", "why_tests_cant": "The only test calls the function without looking at the result; the law must hold for every response, window and bin.", "anchors": ["dsptoolbox/transfer_functions/transfer_functions.py: window_frequency_dependent", "dsptoolbox/transfer_functions/_transfer_functions.py: _fdw_backend"]}
{"id": "C89", "title": "Calibration gives the recorded tone its level, with the data it should use", "statement": "CalibrationData.calibrate_signal multiplies each channel of a signal (and of every band) by the gain with which the recorded tone of that channel (or the only recorded channel) has the stated dB(SPL); levels of the result are the stated level plus the level difference to the recording; a constant offset of the recording does not matter; a wrong number of channels is refused. For every history of calls: a call uses the current recording and level if it is the first one, if it is forced or if channels were added since the last one, and otherwise those of the last computation, so that values changed by hand are ignored. Refuted: calibration with a low signal-to-noise ratio (high_snr=False) always raises and spoils the spectrum parameters of the caller's recording; the imaginary part is lost; silent recordings give nan.", "quantifier": "all recordings, levels, signals, bands, channel counts and all histories of calls and attribute changes", "why_tests_cant": "The tests call the method without checking the level of the result, never use high_snr=False and never repeat a call after a change; the statement ranges over histories.", "anchors": ["dsptoolbox/classes/calibration_data.py: CalibrationData", "dsptoolbox/standard/gain_and_level.py: rms", "dsptoolbox/standard/appending.py: append_signals"]}
{"id": "C90", "title": "Trimming to a time window keeps the samples of the window", "statement": "trim_with_time_selection returns, for bounds other than zero, the samples of an explicit window in order; when the bounds are times of samples this is exactly the inclusive or exclusive window asked for, and the inclusive part up to t and the exclusive part after t make up the signal for every t. Refuted otherwise: an inclusive window whose start lies between two samples begins before the start, an exclusive one whose end lies between two samples misses its last sample, a bound of 0.0 counts as no bound (the window from 0 to 0 is the whole signal), windows with fewer samples than channels come back transposed, and imaginary parts are lost. Bounds outside of the signal and empty windows are refused; bands are cut alike.", "quantifier": "all signals, sampling rates, bounds, both modes, all numbers of channels and bands", "why_tests_cant": "The tests use a few bounds on one signal; the window must be right for every pair of real bounds.", "anchors": ["dsptoolbox/standard/pad_trim_methods.py: trim_with_time_selection", "dsptoolbox/classes/signal.py: Signal.time_data"]}
{"id": "C91", "title": "Frequency vectors are exact grids of their range", "statement": "log_frequency_vector returns the lower limit and n steps per octave above it, exactly those strictly below the upper limit (so the upper limit itself is never included). fractional_octave_frequencies returns, for one and three bands per octave, the tabulated nominal centres inside the range paired with consecutive exact IEC centres whose cutoffs tile the axis (the 20 Hz third-octave band is missing from the table); for any other number of bands it returns consecutive base-two centres containing all centres in the range but possibly one centre outside each end, and their cutoffs leave gaps. erb_frequencies returns exactly the frequencies of the range that lie a whole number of steps from the reference on the ERB scale, in either order of the limits.", "quantifier": "all positive limits, all positive numbers of bins or bands, all resolutions and references", "why_tests_cant": "The set of returned frequencies depends on real limits through logarithms and rounding; tests sample a few ranges", "anchors": ["dsptoolbox/tools.py:log_frequency_vector", "dsptoolbox/tools.py:fractional_octave_frequencies", "dsptoolbox/tools.py:erb_frequencies", "dsptoolbox/standard/_standard_backend.py:_center_frequencies_fractional_octaves_iec", "dsptoolbox/standard/_standard_backend.py:_exact_center_frequencies_fractional_octaves"]}
{"id": "C92", "title": "Phase wrapping, powers of two and the logarithmic mean", "statement": "Wrapping maps a phase to the only equivalent value in [-pi, pi), so pi becomes -pi. The next power of two is the largest one not above or the smallest one not below a number from one on; the closest mode switches at sqrt(2) times a power, so it is not the nearest number, and numbers below one raise an error. The logarithmic mean lies between the smallest and the largest entry, is linear, is at most the arithmetic mean for non-decreasing data, and reads N places a fixed ratio apart.", "quantifier": "all real phases; all positive numbers and modes; all vectors with at least two entries", "why_tests_cant": "Statements over all reals and all vector lengths, including boundary values between branches", "anchors": ["dsptoolbox/helpers/spectrum_utilities.py:_wrap_phase", "dsptoolbox/helpers/other.py:_get_next_power_2", "dsptoolbox/tools.py:log_mean"]}
{"id": "C93", "title": "Coefficient forms of a filter, their history and merging", "statement": "A Filter made from one coefficient form has that form; none or two are refused, but all three at once are accepted and two of them dropped. Trimming and normalising numerator and denominator never changes the response, and a filter is FIR exactly when the denominator is one non-zero number followed by zeros. The order of sections is the sum of their degrees with every section counted at least once, so a pure gain section raises it. After any history of assignments the last accepted sections filter if there are any, else the last numerator/denominator, while poles and zeros only decide on the order, so forms can disagree. merge_filters of FIR or of IIR filters does what the filters do in cascade, with the product response and the summed order, and refuses mixed lists, different rates and fewer than two filters.", "quantifier": "all coefficient lists, all histories of assignments, all lists of filters, all inputs and frequencies", "why_tests_cant": "Histories of setter calls and arbitrary coefficient lists and list lengths are unbounded", "anchors": ["dsptoolbox/classes/filter.py:Filter.__init__", "dsptoolbox/classes/filter.py:Filter.ba", "dsptoolbox/classes/filter.py:Filter.sos", "dsptoolbox/classes/filter.py:Filter.order", "dsptoolbox/classes/filter.py:Filter.get_coefficients", "dsptoolbox/standard/other.py:merge_filters"]}
{"id": "C94", "title": "Integrated loudness", "statement": "lufs_integrated of one to five channels is the loudness of the mean energy of the blocks above both -70 LUFS and 10 LU below the loudness of the blocks above -70 LUFS; without any such block it is nan. The result lies above -70 LUFS, is at least the loudness of all blocks above -70 and at most the loudest block; blocks below -70 never count; equal blocks have their own loudness. A gain moves it by its level as long as no block crosses -70. The first three channels can be exchanged, silent channels add nothing, the surround channels count 1.41 times. But a signal of exactly one block (or up to a step shorter) gives nan whatever it holds, shorter ones raise, the last full block is not counted when the step divides the rest, and the signal handed in loses its imaginary part and amplitude scale factor when its amplitude is constrained.", "quantifier": "all signals with one to five channels, all sampling rates from 4 Hz, all weighting filters of second-order sections, all gains", "why_tests_cant": "Gating depends on the whole distribution of block energies of arbitrary signals", "anchors": ["dsptoolbox/standard/gain_and_level.py:lufs_integrated", "dsptoolbox/standard/_framed_signal_representation.py:_get_framed_signal"]}
{"id": "C95", "title": "Distortion effect", "statement": "With accepted settings each distortion function with a non-zero amount adds its curve over the channel, brought to the peak of the channel, and the sum gets the post gain. Exactly the documented shapes of settings are accepted and they replace all earlier ones. One function at 100 percent keeps the peak (times the gain), a positive factor on the signal goes through, and arctan and hard clipping keep the order of samples. But the amounts do not matter beyond zero and sign, a partial amount doubles the peak, a silent channel becomes nan, soft clipping folds loud samples over to the opposite sign from about 9.5 dB on, and a refused call has already changed the settings.", "quantifier": "all channels, all settings and setting histories, all gains and levels", "why_tests_cant": "Nonlinear curves over arbitrary real samples, lists of functions and histories of settings are unbounded", "anchors": ["dsptoolbox/effects/effects.py:Distortion.set_advanced_parameters", "dsptoolbox/effects/effects.py:Distortion._apply_this_effect", "dsptoolbox/effects/_effects.py:_arctan_distortion", "dsptoolbox/effects/_effects.py:_hard_clip_distortion", "dsptoolbox/effects/_effects.py:_soft_clip_distortion"]}
{"id": "C96", "title": "Low-frequency oscillator and tremolo", "statement": "The harmonic, square and sawtooth oscillators (the latter two unsmoothed) are the named function of the phase, stay between -1 and 1, repeat every period that is a whole number of samples, and a longer waveform starts with the shorter one. The tremolo multiplies all channels by 1 + depth times the waveform, a factor between 1 - depth and 1 + depth. After any history of calls the modulator is an oscillator and the depth in ]0, 1]. But a smoothed square wave exceeds 1, the triangle is stretched to a peak of 1 over whatever span is asked for (so its samples depend on the length, and one sample is nan), array modulators are always refused, and a call refused for its depth has already changed the modulator.", "quantifier": "all frequencies, phases, sampling rates, lengths, depths, signals and histories of calls", "why_tests_cant": "Every length, sampling rate and phase, and every sequence of calls is meant", "anchors": ["dsptoolbox/effects/_effects.py:LFO", "dsptoolbox/effects/effects.py:Tremolo"]}
{"id": "C97", "title": "Chorus effect", "statement": "A chorus with complete parameters gives in each channel the clean signal plus mix times the sum of the voices, scaled to the peak the channel had; a voice is the signal read base delay plus depth times oscillator (rounded to samples) away and zero outside. The constructor accepts exactly lists of one common length or one element, delays above zero and a mix in ]0, 100], and fills all voices. Calls that set no list or all lists keep every voice complete. But the voices come before the signal instead of after it, the clean signal is in at any mix, a channel that sums to zero (any silent one) is nan, changing the base delays alone adds undelayed voices, changing the oscillators alone makes the effect raise IndexError, and array modulators are refused after the other settings were changed.", "quantifier": "all signals, sampling rates, numbers of voices, parameters and mixes", "why_tests_cant": "Arbitrary numbers of voices, delays in any range and arbitrary signals cannot be enumerated", "anchors": ["dsptoolbox/effects/effects.py:Chorus"]}
{"id": "C98", "title": "Parallel filter: what was fitted is what is applied, for whole signals and sample by sample", "statement": "After ParallelFilter.fit_to_ir, filter_signal applies the fitted FIR coefficients, each fir_offset samples after the last, plus the responses of the fitted sections to the signal delayed by delay_iir_samples; and process_sample gives, for any interleaving of set_n_channels, reset_state and process_sample, exactly the last sample of filter_signal on what the channel has received. New coefficients or parameters reach both. The first part fails for an offset with three or more FIR coefficients; the second for a section whose first coefficient is zero, after set_coefficients and after set_parameters.", "quantifier": "every solution of the least-squares problem, number of sections and FIR coefficients, offset, delay, input signal, and every finite sequence of real-time calls over any number of channels", "why_tests_cant": "The equality of streaming and batch output ranges over all call histories, delays and coefficient vectors; the wrong spacing only shows for particular pairs of offset and coefficient count.", "anchors": ["dsptoolbox/classes/parallel_filter.py: ParallelFilter.fit_to_ir, filter_signal, process_sample, set_n_channels, reset_state, set_coefficients, set_parameters", "dsptoolbox/classes/fir_filter_realtime.py: FIRFilter", "dsptoolbox/classes/iir_filter_realtime.py: IIRFilter"]}
{"id": "C99", "title": "Fractional-octave smoothing is an average over a band of the asked width", "statement": "Smoothing keeps the length of the data and never leaves their range, for linear and logarithmic spacing and any non-negative window (in particular the default hann window); scaling and offset of the data go through unchanged, so constants stay; clipping only matters for negative data; the window has an odd number of points and is as wide as the band to one and a half bins; for logarithmic data the result is the normalised weighted mean with the ends held. It is not additive for linear data and does not return the data even when the window is a single point; a window given as a vector is overwritten with its normalised values, and with another length changes the length of the data or is refused.", "quantifier": "all data vectors, numbers of fractions, spacings and windows", "why_tests_cant": "Range and equivariance must hold for every spectrum, length and window, including the monotone interpolation to the logarithmic grid and back", "anchors": ["dsptoolbox/helpers/smoothing.py:_fractional_octave_smoothing", "dsptoolbox/classes/signal.py:get_spectrum", "dsptoolbox/helpers/spectrum_utilities.py:_get_normalized_spectrum"]}
{"id": "C100", "title": "Detrending removes exactly the polynomial trend; envelopes follow the detrended samples", "statement": "detrend(order) returns, for every channel, the input minus a polynomial of that order in the sample index, and the result has no component left along any such polynomial: this determines it, it is the least-squares residual, linear, idempotent, unchanged by adding a trend, never of more energy, and order 0 is mean removal. Negative orders are refused. The result is scaled with one reported factor only when the signal is amplitude-constrained and a detrended sample exceeds 1. envelope() first removes a line; the analytic envelope is the modulus of the analytic signal and is never below the absolute value; the RMS envelope is the root of the sum of the last w squares over w, is |x| for w = 1, never exceeds the largest absolute value in the window, and is below the RMS of the samples so far for the first w - 1 samples. Adding a line to a channel does not change the envelope. A missing or non-positive window is refused.", "quantifier": "every signal, channel count, length, polynomial order, window length, sample", "why_tests_cant": "least-squares optimality ranges over all polynomials and all inputs; a test compares a few arrays", "anchors": ["dsptoolbox/standard/other.py: detrend, envelope", "dsptoolbox/standard/_standard_backend.py: _detrend"]}
{"id": "C101", "title": "The spectral difference is the bin-wise ratio, limited by the dynamic range and independent of gains", "statement": "spectral_difference of two spectra divides every bin of the first by the magnitude of the second at that frequency (powers joined by straight lines, zero outside its range), limited from below to the largest of these values minus the dynamic range; the result has the frequencies of the first. A magnitude spectrum without zeros differs from itself by 1. With a dynamic range the result is finite whenever every channel of the second spectrum is somewhere non-zero on the requested frequencies, the boost is bounded by the range, and its sign does not matter. Energy normalization gives every channel unit energy, and makes the difference independent of positive gains of the channels of both inputs. Different channel counts are refused. The complex difference without dynamic range is the complex quotient. It does not hold that complex=False gives a real result for a complex first spectrum, nor that the dynamic range only affects small bins of a complex difference: bins with a negative real part are replaced.", "quantifier": "every pair of spectra, frequency vectors, channel counts, gains and dynamic ranges", "why_tests_cant": "ranges over all spectra and gains; tests use positive-real or random fixed data and one grid", "anchors": ["dsptoolbox/standard/other.py: spectral_difference", "dsptoolbox/classes/spectrum.py: get_energy, get_interpolated_spectrum, spectral_data"]}
{"id": "C102", "title": "Magnitude plot data", "statement": "The frequencies and decibel values behind magnitude plots are those of the bins from the one nearest to the lower limit to the one nearest to the upper limit, levels more than 500 dB below the largest shown being raised to that value, minus a reference: none, the largest level, the level interpolated at 1 kHz, or the mean power, each of the channel itself or of the first. So the largest value is exactly 0, the line crosses 0 at 1 kHz, or the mean power is 1. A gain on all channels shifts the curves only without normalization; amplitudes and the corresponding powers give the same curves; calibration shifts by 20 log10(1/20e-6) only without normalization. Refuted: 1 kHz as the last frequency passes the check but raises IndexError; power data with the energy of the first channel always fails; smoothing of power data is ignored.", "quantifier": "every ascending frequency vector, every set of channels not all zero in the range, every range, normalization and gain", "why_tests_cant": "the laws range over all spectra, ranges and gains; the failing edge is a single point of the range", "anchors": ["dsptoolbox/helpers/spectrum_utilities.py:_get_normalized_spectrum", "dsptoolbox/helpers/spectrum_utilities.py:_get_exact_gain_1khz"]}
{"id": "C103", "title": "Linear phase responses from magnitudes", "statement": "lin_phase_from_mag returns, for every channel, a response whose transform has exactly the interpolated magnitudes and the phase of a delay by a whole number of samples: the requested delay (or, without one, the largest group delay of the minimum phase plus 1 ms times the factor) rounded up. The response is symmetric around that sample and determined by magnitudes and delay; it is cut or zero-padded to the rounded double of the requested delay and scaled down when it exceeds 1. With check_causality the delay is not below the limit of any channel. From 23 samples on the mirrored part fits into the transform. Refuted: delays below 1.35 samples raise IndexError (zero: ZeroDivisionError); the length is not twice the delay of the response, the magnitudes are scaled down for peaks above 1, and the scale is not recorded.", "quantifier": "every spectrum, sampling rate, delay, factor and number of channels", "why_tests_cant": "exact phase and symmetry for all spectra and delays; rounding depends on the fractional part of the delay", "anchors": ["dsptoolbox/transfer_functions/transfer_functions.py:lin_phase_from_mag", "dsptoolbox/helpers/spectrum_utilities.py:_correct_for_real_phase_spectrum", "dsptoolbox/transfer_functions/_transfer_functions.py:_get_frequency_vector_with_frequency_resolution"]}
{"id": "C104", "title": "Combining a response with a perfect impulse", "statement": "combine_ir_with_dirac adds to one band of each channel the other band of a unit impulse, with the sign of the response at its latency and the requested gain; matching by energy or peak gives both bands the same mean power or peak, and no result when the impulse band is silent. Refuted: the impulse of channel c is delayed by the sum of the latencies of channels 0 to c, so it is aligned exactly in the first channel and in those whose predecessors have no latency; with two channels of equal latency l the second impulse comes at 2 l or falls off the end.", "quantifier": "every number of channels, all whole latencies within the length, all band filters, sampling rates and matching modes", "why_tests_cant": "the offset grows with the latencies of other channels and vanishes for one channel or zero latency, the usual test cases", "anchors": ["dsptoolbox/transfer_functions/transfer_functions.py:combine_ir_with_dirac"]}
{"id": "C105", "title": "Reverberation time", "statement": "reverb_time fits the least squares line (which is unique) to exactly those samples of the energy decay curve between the two levels of the mode, and returns the time in which it falls by 60 dB (10 dB for EDT) with a correlation coefficient between -1 and 0; fewer than two samples raise. The curve starts at 0 dB; without noise it is Schroeder's backward integration and never rises. A decay by rho dB per sample gives the coefficient -1 and the same time in all modes including the adaptive one. Refuted: the time is too long by the factor L/(L-1) of the time axis; a response that starts at once raises IndexError without trimming; the start given by the user has no influence; a level that is never reached is not noticed (T60 equals T30); slope and constant of the fitted noise line are confused, so that loud recordings lose the noise correction.", "quantifier": "every impulse response, sampling rate, mode, stop index of the trimming and decay rate", "why_tests_cant": "tests compare with recorded values of some responses; the regression, the range selection by bisection and the dependence on gain and length concern all responses", "anchors": ["dsptoolbox/room_acoustics/room_acoustics.py:reverb_time", "dsptoolbox/room_acoustics/_room_acoustics.py:_reverb", "dsptoolbox/room_acoustics/_room_acoustics.py:_compute_energy_decay_curve", "dsptoolbox/room_acoustics/_room_acoustics.py:_get_polynomial_coeffs_from_edc", "dsptoolbox/room_acoustics/_room_acoustics.py:_obtain_optimal_reverb_time", "dsptoolbox/room_acoustics/_room_acoustics.py:_get_best_linear_fit_for_edc"]}
{"id": "C106", "title": "Trimming of impulse responses keeps the peak and ends with the decay", "statement": "trim_ir starts the rounded offset plus one sample before the largest sample and stops at least two samples after it. The end is where the smoothed energy time curve, seen through windows of 10 to 90 ms, stops falling for the first time, combined by the documented correlation rules; the safety distance moves it back to where the least squares line meets the noise floor plus 10 dB, but never below three quarters. With several channels the same part is cut from all of them and contains the part found for each. Refuted: that every response can be trimmed (a response whose peak is its last sample, or with a falling curve of less than 5 ms after it, raises ValueError) and that the result does not depend on the level of the response (the first window is compared with 0 dB).", "quantifier": "every impulse response, sampling rate, offset and safety distance; every number of channels; every gain", "why_tests_cant": "The end depends on all samples through the Hilbert transform, recursive smoothing, window means and correlations; tests use a few long decaying responses.", "anchors": ["dsptoolbox/transfer_functions/transfer_functions.py:trim_ir", "dsptoolbox/transfer_functions/_transfer_functions.py:_trim_ir", "dsptoolbox/transfer_functions/_transfer_functions.py:__find_index_above_noise_floor"]}
{"id": "C107", "title": "Applying a room impulse response", "statement": "convolve_rir_on_signal gives, in every channel, the convolution with the response, of the signal's length with keep_length and of the sum of the lengths minus one without. With keep_peak_level every channel is multiplied by a positive factor of its own so that its peak equals the peak of the original channel; the result is then never rescaled, the level of the response does not matter and a single impulse leaves the signal as it was. Without it one common factor applies: 1, or the reciprocal of the loudest sample when a constrained signal exceeds 1. A response with several channels or another sampling rate is refused. Refuted: that one factor relates the result to the convolution (channels are levelled one by one, so their balance changes), and that the result is always a signal (a silent channel, or a response that begins after the kept length, gives nan).", "quantifier": "all signals, responses, lengths, numbers of channels and settings of both flags", "why_tests_cant": "tests convolve one example and check that it runs; the laws range over all responses and signals, and the nan cases need silence", "anchors": ["dsptoolbox/room_acoustics/room_acoustics.py: convolve_rir_on_signal"]}
{"id": "C108", "title": "Dither and truncation to half precision", "statement": "dither adds to every sample noise of at most epsilon (triangular) or half of epsilon (rectangular) for every outcome of the draws, if nothing leaves the range of a constrained signal, and in any case the result is within twice that of the original. With truncation every sample is the half-precision number nearest to the sample with its noise (within 2^-12) if nothing leaves [-1, 1]. A noise-shaping bank receives exactly the noise and its output is added. Refuted: that the deviation never exceeds epsilon and that truncated samples are half-precision numbers (a constrained signal pushed above full scale is scaled down as a whole), that the default epsilon dithers (half-precision samples of at least 2^-11 come back unchanged for every outcome of the noise), and that truncation always gives finite samples.", "quantifier": "all signals, values of epsilon, outcomes of the random draws, shaping filter banks and settings", "why_tests_cant": "the noise is random, a test sees one outcome and cannot bound all of them, nor check nearest rounding for every sample", "anchors": ["dsptoolbox/standard/other.py: dither"]}
{"id": "C109", "title": "Reconstructing fractional octave bands add up to the input", "statement": "The filters of the reconstructing fractional octave filter bank, applied to one signal and added, give the input delayed by half the filter length and scaled by one constant, whenever the transitions between neighbouring bands do not overlap. The constant is the middle value of the window, just below 1. Every filter is the window times a response that is symmetric around the delay. The docstring promises perfect reconstruction without conditions: with the default octaves at 32 kHz two transitions share a frequency bin and the sum of the filters is not an impulse.", "quantifier": "every frequency range, bandwidth fraction, overlap in [0,1], slope, filter length of 2^5 to 2^17 samples, sampling rate and input signal; for the refutation every slope", "why_tests_cant": "the sum must be an impulse for every combination of range, length and sampling rate; whether transitions overlap depends on the rounding of band limits to bins, which fails only for some settings", "anchors": ["dsptoolbox/filterbanks/filterbanks.py: reconstructing_fractional_octave_bands", "dsptoolbox/tools.py: fractional_octave_frequencies"]}
{"id": "C110", "title": "Resampling a filter keeps its response up to the frequency map", "statement": "Resampling a stable real filter through the bilinear transform gives a stable real filter with as many zeros as poles. Its response at one frequency equals the response of the original at the frequency whose tangent of half the angle is scaled by the ratio of the sampling rates; for an unchanged rate the response is unchanged. This holds when zeros and poles are equal in number or no zero lies at half the sampling rate. Otherwise it fails: a moving average of two samples becomes a constant gain of one half, and with fewer zeros than poles a zero at half the sampling rate moves to the origin, even for an unchanged rate.", "quantifier": "every list of zeros and poles in conjugate pairs with poles inside the unit circle, every gain, every two sampling rates and every frequency below half the sampling rate", "why_tests_cant": "the equality is between rational functions for every order, every position of zeros and poles and every frequency; tests compare one filter on a grid", "anchors": ["dsptoolbox/standard/resampling.py: resample_filter", "dsptoolbox/classes/filter.py: Filter.get_coefficients, Filter.from_zpk"]}
{"id": "C111", "title": "Resampling a signal and true peak level", "statement": "Resampling gives the smallest number of samples that covers the old duration, the new sampling rate, and at each new instant the interpolation of the channel with a symmetric Kaiser-windowed sinc of ten zeros on each side whose sum is the upsampling factor, without delay; with rescaling it is multiplied by old over new rate; a constrained signal that exceeds 1 is divided by its loudest sample. When upsampling, the old samples are kept up to one common factor, the kernel at 0. The same rate gives the same signal. Not so: the imaginary part of a complex signal is dropped, and when fewer samples than channels remain, samples and channels are exchanged; one sample of one channel is an IndexError. The true peak level is the level of the largest absolute value of the channel interpolated to four times the rate, the peak level that of the samples, with no trace of the internal gain reduction, and the true peak is at least the peak times the kernel at 0.", "quantifier": "all positive integer sampling rates, all signals of any length and number of channels, constrained or not, with and without rescaling", "why_tests_cant": "Rates, lengths, channels and samples are unbounded; a test compares a few ratios and cannot show that the delay is zero and the kernel right for every ratio.", "anchors": ["dsptoolbox/standard/resampling.py:resample", "dsptoolbox/standard/gain_and_level.py:true_peak_level"]}
{"id": "C112", "title": "Complex smoothing averages each bin over its band", "statement": "Smoothing a spectrum over a fraction of an octave replaces each bin by a weighted mean of the bins in its band: the weights depend only on the bin, the width and the window, are not negative, sum to 1, vanish more than half a bin outside the band and are positive well inside it; a band of at most two bins is left alone, otherwise the weights follow the window on a logarithmic scale, cut at the last bin. Magnitude and power smoothing keep the phase of every bin and give the mean magnitude or the root of the mean power; equivalent complex smoothing has the root of the mean power, the phase of the complex mean, and is never smaller than it; the phase domains average magnitude or power and a continuous phase apart. A constant spectrum is unchanged.", "quantifier": "all spectra of any number of bins, all positive widths, all windows that are positive except perhaps at their ends, all bins and smoothing domains", "why_tests_cant": "The widths, bins, windows and spectra are unbounded; the limits of each band are rounded and cut differently for every bin.", "anchors": ["dsptoolbox/transfer_functions/transfer_functions.py:complex_smoothing", "dsptoolbox/transfer_functions/_transfer_functions.py:_complex_smoothing_backend"]}
{"id": "C113", "title": "Saved objects are found again under the same path", "statement": "A path given for saving or loading is completed from its file name only: a name without a dot gets the format as extension, a name that has the format as extension is left as it is, any other extension is refused with an AssertionError; completing twice changes nothing. After any sequence of saves, loading under any path completed to the same file returns the object saved there last, other files are untouched, and a refused save touches no file. A signal is written exactly for the modes wav, flac and pkl with an allowed bit depth; wav and flac receive the real samples only; every error leaves the files as they were. Not so: a name with a dot that is not an extension cannot be saved unless the extension is written out.", "quantifier": "all paths, all formats without dot and slash, all sequences of saves, all bit depths and modes", "why_tests_cant": "Paths and histories are unbounded; a test saves one object under one name.", "anchors": ["dsptoolbox/helpers/other.py:_check_format_in_path", "dsptoolbox/classes/signal.py:Signal.save_signal", "dsptoolbox/standard/other.py:load_pkl_object"]}
{"id": "C114", "title": "Interpolating a frequency response is linear in the chosen representation and stays between its neighbours", "statement": "tools.interpolate_fr (linear scheme) returns one value per target frequency. Within the frequency vector, the result is the admissible value whose amplitude, power or logarithm (as the mode asks) lies on the straight line between those of the two neighbouring values: it is exact at the given frequencies and between its neighbours elsewhere. Outside the vector it is 0, the value at the edge when decibels are interpolated, and the level of the smallest normal number when decibels are converted to amplitude or power. amplitude2db and power2db give the same result. The sign of a negative amplitude is lost (amplitude2power) and one negative power makes the result nan.", "quantifier": "all strictly ascending frequency vectors of at least two values, all admissible responses, all lists of targets, all modes", "why_tests_cant": "Tests interpolate one response in a few modes; the law and the bounds must hold for every response, frequency vector, target and mode.", "anchors": ["dsptoolbox/helpers/spectrum_utilities.py:_interpolate_fr", "dsptoolbox/tools.py:interpolate_fr", "dsptoolbox/helpers/gain_and_level.py:to_db", "dsptoolbox/helpers/gain_and_level.py:from_db"]}
{"id": "C115", "title": "Joining spectra keeps every channel, in order", "statement": "append_spectra gives a spectrum over the frequencies of the first one whose channels are the channels of all spectra in their order, each as its own interpolation to these frequencies gives it. Over equal frequency vectors these are the magnitudes of all values or, for complex spectra with the Complex interpolation domain, the values themselves. With the default interpolation domain the join of complex spectra holds their powers: phases are lost and magnitudes squared. Fewer than two spectra, a magnitude spectrum among complex ones, and more channels than frequencies are refused.", "quantifier": "all lists of spectra with any numbers of channels, frequency vectors, interpolation domains and edge handling (linear scheme), both settings of complex_if_available", "why_tests_cant": "A test joins one pair of spectra and checks the shape; the order and values of the channels must be right for every list of spectra and every setting.", "anchors": ["dsptoolbox/standard/appending.py:append_spectra", "dsptoolbox/classes/spectrum.py:Spectrum.get_interpolated_spectrum"]}
{"id": "C116", "title": "Joining filter banks keeps all filters in order", "statement": "append_filterbanks of at least two banks with the same rate settings gives a bank with the filters of all banks in their order and rates that match them. A signal filtered in parallel by the result has the bands of all banks in order; filtered in sequence it is the signal filtered by one bank after the other, with the same errors. Banks of different rates are refused; as the lists of rates are compared, multirate banks with different numbers of filters can never be joined.", "quantifier": "all lists of filter banks of any sizes and rates, all filters, all signals", "why_tests_cant": "A test joins two fixed banks and counts filters; order, rates and the effect on a signal must be right for every list of banks and every signal.", "anchors": ["dsptoolbox/standard/appending.py:append_filterbanks", "dsptoolbox/classes/filterbank.py:FilterBank.filters", "dsptoolbox/classes/filterbank.py:FilterBank.filter_signal"]}
{"id": "C117", "title": "The gaussian kernel is stable, has unit gain and approximates the gaussian of the requested width", "statement": "gaussian_kernel with a positive length, a boundary value in ]0, 1[ and a positive even order gives order / 2 equal stable first-order sections with gain 1 at 0 Hz. With sigma such that the gaussian bell has the boundary value at the kernel length, the response of forward and backward filtering is (1 + sigma^2 (1 - cos w) / (order / 2)) ^ -(order / 2): never above 1, never below the spectrum of the gaussian, and between exp(-x) and exp(-x / (1 + 2 x / order)) for x = sigma^2 (1 - cos w), so it tends to exp(-x) with growing order. Order 0 is accepted and divides by zero; odd orders and a missing sampling rate are refused.", "quantifier": "all kernel lengths, boundary values, even orders, sampling rates and frequencies", "why_tests_cant": "A test builds one kernel; stability, unit gain and the response must hold for every real length and boundary value, every order and every frequency.", "anchors": ["dsptoolbox/filterbanks/filterbanks.py:gaussian_kernel"]}
{"id": "C118", "title": "The fractional delay filter is an allpass with exactly the requested delay at 0 Hz", "statement": "filterbanks.fractional_delay of any positive order and any delay in ]0, 1[ gives a filter of that order whose numerator and denominator have the same magnitude at every frequency (allpass), with leading coefficient 1, gain 1 at 0 Hz and a group delay of exactly order + delay samples at 0 Hz. It refuses exactly the orders below 1 and the delays outside ]0, 1[.", "quantifier": "all orders, all delays, all frequencies", "why_tests_cant": "A test checks a few orders and delays with a tolerance; the sums behind the delay have to come out exactly for every order and every real delay.", "anchors": ["dsptoolbox/filterbanks/filterbanks.py:fractional_delay"]}
{"id": "C119", "title": "Matched equalizers are stable and hit their requested gains exactly", "statement": "filterbanks.matched_biquad of type peaking, lowpass, highpass or bandpass, whenever it has real coefficients, gives a filter with both poles inside the unit circle for every frequency, gain and quality: the images exp(w p) of the poles p of the analog prototype. At the characteristic frequency the squared gain is exactly that of the requested gain (peaking, bandpass) or of quality times the requested gain (lowpass, highpass). For peaking and bandpass this frequency is where the response touches the requested gain: the difference over all frequencies is a multiple of a square, so the gain is the largest one, or for negative gains in dB of a peaking equalizer the smallest one. Highpass and bandpass are silent at 0 Hz, peaking has gain 1 there and lowpass the requested gain. A highpass always exists. A peaking equalizer of 0 dB is the identity. Refused are exactly frequencies outside ]0, half the rate[, qualities that are not positive and, for peaking, factors that are not positive.", "quantifier": "all types named, all frequencies below half the sampling rate, all gains, all positive qualities and factors", "why_tests_cant": "A test samples a few parameters and reads a curve within a tolerance; stability and the exact gains have to hold over a continuum of frequency, gain and quality, with two different formulas for low and high quality.", "anchors": ["dsptoolbox/filterbanks/filterbanks.py:matched_biquad", "dsptoolbox/filterbanks/_filterbank.py:_get_matched_peaking_eq,_get_matched_lowpass_eq,_get_matched_highpass_eq,_get_matched_bandpass_eq,__get_matched_eq_helpers"]}
