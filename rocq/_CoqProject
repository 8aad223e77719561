-Q theories Verif
theories/Arith.v
theories/XR.v
theories/RealAux.v
theories/Fourier.v
theories/Model_garch.v
theories/Spec_garch.v
theories/Proofs_garch.v
theories/Proofs_garch2.v
theories/Proofs_garch3.v
theories/Proofs_garch4.v
theories/Proofs_garch5.v
theories/Props_garch.v
theories/Props_garch2.v
theories/Model_measures.v
theories/Spec_measures.v
theories/Proofs_measures.v
theories/Props_measures.v
theories/Props_srisk.v
theories/Model_micro.v
theories/Spec_micro.v
theories/Proofs_micro.v
theories/Props_spread.v
theories/Props_lob.v
theories/Model_iforest.v
theories/Spec_iforest.v
theories/Props_iforest.v
theories/Props_iforest2.v
theories/Model_pin.v
theories/Props_pin.v
theories/Props_pin2.v
theories/Model_dip.v
theories/Props_dip.v
theories/Model_datasets.v
theories/Props_datasets.v
theories/Model_ar.v
theories/Props_ar.v
theories/Model_mgarch.v
theories/Props_mgarch.v
theories/Props_mgarch2.v
theories/Model_lrmes.v
theories/Props_lrmes.v
theories/Props_lrmes2.v
theories/Gauss.v
theories/Model_option.v
theories/Props_option.v
theories/Props_cca.v
theories/Model_merton.v
theories/Props_fftsmooth.v
theories/Props_loans.v
theories/Props_modmerton.v
theories/Props_modmerton2.v
theories/Props_modmerton3.v
theories/Props_modmerton4.v
theories/Model_imports.v
theories/Props_imports.v
theories/Float64.v
theories/Float64b.v
theories/Float64c.v
theories/Float64d.v
theories/Float64e.v
theories/Props_float.v
theories/Props_float2.v
theories/Props_float3.v
theories/Props_float4.v
theories/Props_tight.v
theories/Model_simulation.v
theories/Props_simulation.v
theories/Model_memory.v
theories/Props_memory.v
theories/Model_dipdraws.v
theories/Cholesky.v
theories/Props_dipdraws.v
theories/Model_iforestpy.v
theories/Props_iforestpy.v
theories/Model_ndarray.v
theories/Model_mertonarrays.v
theories/Props_mertonarrays.v
theories/Model_matlab.v
theories/Props_matlab.v
theories/Model_simulate.v
theories/Props_simulate.v
theories/Props_simulate2.v
theories/Model_matlab2.v
theories/Props_matlab2.v
theories/Props_matlab3.v
theories/Props_empirical.v
theories/Props_empirical2.v
theories/Props_lrmes3.v
theories/Props_cases.v
theories/Props_simulate3.v
theories/Props_mgarch3.v
theories/Props_expect.v
theories/Model_singlearrays.v
theories/Props_singlearrays.v
theories/Props_replay.v
theories/Props_iforest_strings.v
theories/Model_srisk.v
theories/Props_srisk2.v
theories/Props_pin3.v
theories/Props_garch3.v
theories/Props_docs.v
theories/Model_threads.v
theories/Props_threads.v
theories/Model_crash.v
theories/Props_crash.v
theories/Props_crash2.v
theories/Props_crash3.v
theories/Props_pinfloat.v
theories/Props_mgarch4.v
theories/Model_empirical.v
theories/Props_empirical3.v
theories/Props_float5.v
theories/Model_intresids.v
theories/Props_intresids.v
theories/Model_testdata.v
theories/Props_testdata.v
theories/Props_accuracy.v
theories/Props_accuracy2.v
theories/Props_spread3.v
theories/Model_latex.v
theories/Spec_latex.v
theories/Proofs_latex.v
theories/Props_latex.v
theories/Props_averages.v
theories/Props_option64.v
theories/Draws.v
theories/Props_volterm.v
theories/Props_montecarlo.v
theories/Model_scenarios.v
theories/Props_scenarios.v
theories/Harmonic.v
theories/Props_pathlen.v
theories/Props_outlier.v
theories/Props_loglik64.v
theories/Props_portfolio.v
theories/Props_influence.v
theories/Props_srisk64.v
theories/Props_dcc64.v
theories/Props_lob64.v
theories/Props_sriskmc.v
theories/Props_lk64.v
theories/Props_dccavg.v
theories/Props_ccc64.v
theories/Props_dcclik64.v
theories/Props_score64.v
theories/Props_cca64.v
