-Q theories Verif

theories/Base.v
theories/NDim.v
theories/DFT.v
theories/Kernel.v
theories/Py.v
theories/Spec.v
theories/M_fast_ffts.v
theories/M_shift.v
theories/L_shift.v
theories/P_shift.v
theories/M_scale.v
theories/L_scale.v
theories/P_scale.v
theories/M_zoom.v
theories/L_zoom.v
theories/P_zoom.v
theories/Num.v
theories/M_upsample.v
theories/L_upsample.v
theories/P_upsample.v
theories/M_downsample.v
theories/L_downsample.v
theories/P_downsample.v
theories/M_convolve.v
theories/L_convolve.v
theories/P_convolve.v
theories/M_correlate.v
theories/Sum2.v
theories/Spec2.v
theories/L_correlate.v
theories/P_correlate.v
theories/Arg.v
theories/M_chi2.v
theories/L_chi2.v
theories/P_chi2map.v
theories/L_chi2shift.v
theories/L_fshift.v
theories/P_chi2shift.v
theories/P_chi2errors.v
theories/M_xcorr.v
theories/Spec3.v
theories/L_xcorr.v
theories/P_xcorr.v
theories/P_xcorr2.v
theories/P_xcorr3.v
theories/Spec4.v
theories/M_register.v
theories/L_register.v
theories/L_register2.v
theories/L_register3.v
theories/P_register.v
theories/P_register2.v
theories/P_register3.v
theories/M_iterzoom.v
theories/Spec5.v
theories/L_iterzoom.v
theories/L_iterzoom2.v
theories/L_iterzoom3.v
theories/P_iterzoom.v
theories/P_iterzoom2.v
theories/P_iterzoom3.v
theories/M_kernel.v
theories/Spec6.v
theories/P_kernel.v
theories/M_fits.v
theories/Spec7.v
theories/M_fits2.v
theories/L_fits.v
theories/P_fits.v
theories/P_fits2.v
theories/M_heap.v
theories/Spec8.v
theories/L_heap.v
theories/P_heap.v
theories/M_leastsq.v
theories/P_leastsq.v
theories/P_agree.v
theories/M_interpnd.v
theories/P_interpnd.v
theories/P_shift2.v
theories/P_fft2.v
theories/P_convolve2.v
theories/M_convglobals.v
theories/P_convglobals.v
theories/P_correlate2.v
theories/P_scale2.v
theories/P_chi2shift2.v
theories/P_xcorr4.v
theories/P_register4.v
theories/P_kernel2.v
theories/M_masked.v
theories/P_masked.v
theories/P_leastsq2.v
theories/M_intdtype.v
theories/P_intdtype.v
theories/P_zoom2.v
theories/P_common.v
theories/P_mirror.v
theories/P_units.v
theories/P_noise.v
theories/P_errgrow.v
theories/P_convalg.v
theories/P_resample.v
theories/M_kwargs.v
theories/P_kwargs.v
theories/M_rounding.v
theories/P_rounding.v
theories/P_dftreg.v
theories/P_iterzoom4.v
theories/P_finer.v
theories/P_agree2.v
theories/P_iterzoom5.v
theories/P_zucker.v
theories/L_tail.v
theories/P_intshift.v
theories/M_intzoom.v
theories/L_intzoom.v
theories/P_intzoom.v
theories/M_intxcorr.v
theories/P_intxcorr.v
theories/L_same.v
theories/P_transpose.v
theories/M_rounding2.v
theories/P_rounding2.v
theories/M_float.v
theories/L_float.v
theories/P_float.v
theories/M_rounding3.v
theories/L_rounding3.v
theories/P_rounding3.v
theories/P_float2.v
theories/P_gaussfit.v
theories/M_rounding4.v
theories/P_rounding4.v
theories/P_float3.v
theories/L_accuracy.v
theories/P_accuracy.v
theories/P_accuracy2.v
theories/M_testing.v
theories/P_testing.v
theories/P_accuracy3.v
theories/M_rounding5.v
theories/P_rounding5.v
theories/P_float4.v
theories/P_consistent.v
theories/P_consistent2.v
theories/M_rounding6.v
theories/L_rounding6.v
theories/P_rounding6.v
theories/P_float6.v
theories/M_rounding7.v
theories/L_rounding7.v
theories/P_rounding7.v
theories/P_float7.v
theories/M_rounding8.v
theories/L_rounding8.v
theories/P_rounding8.v
theories/P_float8.v
theories/M_rounding9.v
theories/P_rounding9.v
theories/P_float9.v
theories/P_rounding10.v
theories/P_float10.v
theories/M_testing2.v
theories/P_testing2.v
theories/P_testing3.v
theories/P_readme.v
theories/M_testing3.v
theories/P_testing4.v
theories/P_sampled.v
theories/P_sampled2.v
theories/P_sampled3.v
theories/P_rounding11.v
theories/P_rounding12.v
theories/M_testing4.v
theories/P_covers.v
theories/P_testing5.v
theories/M_testing5.v
theories/P_testing6.v
