-Q theories Verif
theories/Base.v
theories/BaseLemmas.v
theories/M_addrates.v
theories/M_apps.v
theories/M_bands.v
theories/M_complex.v
theories/M_container.v
theories/M_context.v
theories/M_crystal.v
theories/M_delta.v
theories/M_device.v
theories/M_drift.v
theories/M_eigen.v
theories/M_electron.v
theories/M_elphio.v
theories/M_epa.v
theories/M_fourier.v
theories/M_helper.v
theories/M_inputs.v
theories/M_interaction.v
theories/M_io.v
theories/M_irreducible.v
theories/M_isotope.v
theories/M_matrix.v
theories/M_mpi.v
theories/M_observable.v
theories/M_omega.v
theories/M_onsager.v
theories/M_output.v
theories/M_particle.v
theories/M_phel.v
theories/M_phono3py.v
theories/M_phonon.v
theories/M_phonopy.v
theories/M_plot.v
theories/M_pmatrix.v
theories/M_points.v
theories/M_qe.v
theories/M_qeio.v
theories/M_reduce.v
theories/M_run.v
theories/M_scattering.v
theories/M_solver.v
theories/M_startup.v
theories/M_sumrule.v
theories/M_sweep.v
theories/M_umat.v
theories/M_utilities.v
theories/M_vbte.v
theories/M_visc.v
theories/M_wannier.v
theories/M_wigner.v
theories/M_wte.v
theories/M_xml.v
theories/M_yaml.v
theories/S_addrates.v
theories/S_apps.v
theories/S_bands.v
theories/S_container.v
theories/S_context.v
theories/S_crystal.v
theories/S_delta.v
theories/S_device.v
theories/S_drift.v
theories/S_eigen.v
theories/S_electron.v
theories/S_elphio.v
theories/S_epa.v
theories/S_fourier.v
theories/S_helper.v
theories/S_inputs.v
theories/S_interaction.v
theories/S_io.v
theories/S_irreducible.v
theories/S_isotope.v
theories/S_matrix.v
theories/S_mpi.v
theories/S_observable.v
theories/S_omega.v
theories/S_onsager.v
theories/S_output.v
theories/S_particle.v
theories/S_phel.v
theories/S_phono3py.v
theories/S_phonon.v
theories/S_phonopy.v
theories/S_plot.v
theories/S_pmatrix.v
theories/S_points.v
theories/S_qe.v
theories/S_qeio.v
theories/S_rates.v
theories/S_run.v
theories/S_scattering.v
theories/S_solver.v
theories/S_startup.v
theories/S_sumrule.v
theories/S_sweep.v
theories/S_umat.v
theories/S_utilities.v
theories/S_vbte.v
theories/S_visc.v
theories/S_wannier.v
theories/S_wigner.v
theories/S_wte.v
theories/S_xml.v
theories/S_yaml.v
theories/L_apps.v
theories/L_apps2.v
theories/L_bands.v
theories/L_bands2.v
theories/L_bands3.v
theories/L_bands4.v
theories/L_complex.v
theories/L_container.v
theories/L_context.v
theories/L_context2.v
theories/L_context3.v
theories/L_context4.v
theories/L_delta.v
theories/L_device.v
theories/L_dft.v
theories/L_drift.v
theories/L_eigen.v
theories/L_electron.v
theories/L_electron2.v
theories/L_electron3.v
theories/L_electron4.v
theories/L_electron5.v
theories/L_elphio.v
theories/L_elphio2.v
theories/L_epa.v
theories/L_fill.v
theories/L_fourier.v
theories/L_fourier2.v
theories/L_fourier3.v
theories/L_helper.v
theories/L_helper2.v
theories/L_inputs.v
theories/L_interaction.v
theories/L_interaction2.v
theories/L_interaction3.v
theories/L_interaction4.v
theories/L_interaction5.v
theories/L_io.v
theories/L_irreducible.v
theories/L_irreducible2.v
theories/L_matrix.v
theories/L_matrix2.v
theories/L_matrix3.v
theories/L_matrix4.v
theories/L_mpi.v
theories/L_observable.v
theories/L_omega.v
theories/L_onsager.v
theories/L_onsager2.v
theories/L_particle.v
theories/L_phel.v
theories/L_phono3py.v
theories/L_phono3py2.v
theories/L_phono3py3.v
theories/L_phono3py4.v
theories/L_phonon.v
theories/L_phonon2.v
theories/L_phonon3.v
theories/L_phonon4.v
theories/L_phonon5.v
theories/L_phonopy.v
theories/L_plot.v
theories/L_plot2.v
theories/L_pmatrix.v
theories/L_points.v
theories/L_points2.v
theories/L_qe.v
theories/L_qeio.v
theories/L_qeio2.v
theories/L_rates.v
theories/L_reduce.v
theories/L_run.v
theories/L_scattering.v
theories/L_scattering2.v
theories/L_scattering3.v
theories/L_scattering4.v
theories/L_scattering5.v
theories/L_search.v
theories/L_solver.v
theories/L_solver2.v
theories/L_solver3.v
theories/L_startup.v
theories/L_sumrule.v
theories/L_sumrule2.v
theories/L_sweep.v
theories/L_sweep2.v
theories/L_utilities.v
theories/L_vbte.v
theories/L_visc.v
theories/L_visc2.v
theories/L_wannier.v
theories/L_wannier2.v
theories/L_wannier3.v
theories/L_wannier4.v
theories/L_wannier5.v
theories/L_wannier6.v
theories/L_wigner.v
theories/L_wte.v
theories/L_xml.v
theories/L_yaml.v
theories/L_yaml2.v
theories/L_yaml3.v
theories/L_yaml4.v
theories/P_addrates.v
theories/P_apps.v
theories/P_bands.v
theories/P_container.v
theories/P_context.v
theories/P_crystal.v
theories/P_delta.v
theories/P_device.v
theories/P_drift.v
theories/P_eigen.v
theories/P_electron.v
theories/P_elphio.v
theories/P_epa.v
theories/P_fourier.v
theories/P_helper.v
theories/P_inputs.v
theories/P_interaction.v
theories/P_io.v
theories/P_irreducible.v
theories/P_isotope.v
theories/P_matrix.v
theories/P_mpi.v
theories/P_observable.v
theories/P_omega.v
theories/P_onsager.v
theories/P_output.v
theories/P_particle.v
theories/P_phel.v
theories/P_phono3py.v
theories/P_phonon.v
theories/P_phonopy.v
theories/P_plot.v
theories/P_pmatrix.v
theories/P_points.v
theories/P_qe.v
theories/P_qeio.v
theories/P_rates.v
theories/P_run.v
theories/P_scattering.v
theories/P_solver.v
theories/P_startup.v
theories/P_sumrule.v
theories/P_sweep.v
theories/P_umat.v
theories/P_utilities.v
theories/P_vbte.v
theories/P_visc.v
theories/P_wannier.v
theories/P_wigner.v
theories/P_wte.v
theories/P_xml.v
theories/P_yaml.v
