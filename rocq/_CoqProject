-Q theories Verif
theories/Alg.v
theories/Spec.v
theories/M_realtime.v
theories/P_realtime.v
theories/P_realtime2.v
theories/Claims_realtime.v
theories/M_arrays.v
theories/P_arrays.v
theories/P_arrays2.v
theories/M_frames.v
theories/P_frames.v
theories/Claims_arrays.v
theories/M_signal.v
theories/P_signal.v
theories/Claims_signal.v
theories/M_filter.v
theories/P_filter.v
theories/Claims_filter.v
theories/M_cache.v
theories/Claims_cache.v
theories/M_samples.v
theories/P_samples.v
theories/Claims_samples.v
theories/Spec_block.v
theories/Dft.v
theories/M_block.v
theories/P_block.v
theories/Claims_block.v
theories/M_warp.v
theories/P_warp.v
theories/Claims_warp.v
theories/P_conv.v
theories/Spec_kautz.v
theories/M_kautz.v
theories/P_kautz.v
theories/Claims_kautz.v
theories/Spec_lattice.v
theories/M_lattice.v
theories/P_lattice.v
theories/Claims_lattice.v
theories/Spec_ar.v
theories/M_ar.v
theories/P_ar.v
theories/P_ar2.v
theories/Claims_ar.v
theories/M_dynamics.v
theories/Claims_dynamics.v
theories/M_delay.v
theories/Claims_delay.v
theories/M_spectrum.v
theories/P_spectrum.v
theories/Claims_spectrum.v
theories/Claims_spectrum2.v
theories/M_scaling.v
theories/P_parseval.v
theories/Claims_scaling.v
theories/M_welch.v
theories/P_welch.v
theories/Claims_welch.v
theories/M_tf.v
theories/Claims_tf.v
theories/M_latency.v
theories/Claims_latency.v
theories/M_level.v
theories/Claims_level.v
theories/Claims_fade.v
theories/Claims_activity.v
theories/M_biquad.v
theories/P_biquad.v
theories/Claims_biquad.v
theories/M_room.v
theories/Claims_room.v
theories/M_shoebox.v
theories/Claims_shoebox.v
theories/Claims_image.v
theories/M_stft.v
theories/P_stft.v
theories/Claims_stft.v
theories/M_distances.v
theories/Claims_distances.v
theories/P_distances.v
theories/Claims_spectral.v
theories/Claims_fwsnr.v
theories/M_crossover.v
theories/P_crossover.v
theories/Claims_crossover.v
theories/Claims_qmf.v
theories/M_beam.v
theories/Claims_grid.v
theories/Claims_steering.v
theories/Claims_das.v
theories/Claims_beam2.v
theories/Claims_clean.v
theories/M_fracdelay.v
theories/Claims_fracdelay.v
theories/Claims_sources.v
theories/P_dft2.v
theories/M_ir.v
theories/P_ir.v
theories/Claims_deconv.v
theories/M_minphase.v
theories/P_minphase.v
theories/Claims_minphase.v
theories/M_groupdelay.v
theories/P_groupdelay.v
theories/Claims_groupdelay.v
theories/M_transforms.v
theories/Claims_transforms.v
theories/P_warping.v
theories/Claims_warping.v
theories/M_mel.v
theories/Claims_mel.v
theories/M_generators.v
theories/Claims_generators.v
theories/Claims_chirp.v
theories/Claims_osc.v
theories/Claims_noise.v
theories/M_irwindow.v
theories/Claims_irwindow.v
theories/Claims_centered.v
theories/M_harmonics.v
theories/Claims_harmonics.v
theories/M_irfilter.v
theories/Claims_irfilter.v
theories/M_average.v
theories/Claims_average.v
theories/M_fdw.v
theories/Claims_fdw.v
theories/M_calib.v
theories/Claims_calib.v
theories/M_timesel.v
theories/Claims_timesel.v
theories/M_fvec.v
theories/Claims_fvec.v
theories/Claims_misc.v
theories/M_coeffs.v
theories/Claims_coeffs.v
theories/M_lufs.v
theories/Claims_lufs.v
theories/M_effects.v
theories/Claims_distortion.v
theories/Claims_tremolo.v
theories/Claims_chorus.v
theories/M_parallel.v
theories/Claims_parallel.v
theories/M_smoothing.v
theories/Claims_smoothing.v
theories/M_detrend.v
theories/Claims_detrend.v
theories/M_specdiff.v
theories/Claims_specdiff.v
theories/M_magplot.v
theories/Claims_magplot.v
theories/M_linphase.v
theories/Claims_linphase.v
theories/M_combine.v
theories/Claims_combine.v
theories/M_reverb.v
theories/Claims_reverb.v
theories/M_trim.v
theories/Claims_trim.v
theories/M_rirconv.v
theories/Claims_rirconv.v
theories/M_dither.v
theories/Claims_dither.v
theories/M_octbank.v
theories/Claims_octbank.v
theories/M_resfilter.v
theories/Claims_resfilter.v
theories/M_resample.v
theories/Claims_resample.v
theories/M_csmooth.v
theories/Claims_csmooth.v
theories/M_saving.v
theories/Claims_saving.v
theories/M_interpfr.v
theories/Claims_interpfr.v
theories/M_append.v
theories/Claims_append.v
theories/M_appendfb.v
theories/Claims_appendfb.v
theories/M_gausskernel.v
theories/Claims_gausskernel.v
theories/M_thiran.v
theories/Claims_thiran.v
theories/M_matched.v
theories/Claims_matched.v
