-Q theories Verif
theories/Arr.v
theories/Cx.v
theories/Model_adj.v
theories/Model_beta.v
theories/Model_bowtie.v
theories/Model_bpm.v
theories/Model_comp.v
theories/Model_coupling.v
theories/Model_cs.v
theories/Model_cw.v
theories/Model_design.v
theories/Model_envelope.v
theories/Model_fdfd.v
theories/Model_fdfdc.v
theories/Model_fdtd.v
theories/Model_fdtdfl.v
theories/Model_fdtdpml.v
theories/Model_feast.v
theories/Model_float.v
theories/Model_forward.v
theories/Model_fround.v
theories/Model_grid.v
theories/Model_hess.v
theories/Model_hessdist.v
theories/Model_insitu.v
theories/Model_insitu2.v
theories/Model_kind.v
theories/Model_layer.v
theories/Model_matopt.v
theories/Model_matrix.v
theories/Model_meshops.v
theories/Model_metric.v
theories/Model_mode.v
theories/Model_modelib.v
theories/Model_nodenull.v
theories/Model_null.v
theories/Model_opt.v
theories/Model_parse.v
theories/Model_portaxes.v
theories/Model_propjax.v
theories/Model_pulse.v
theories/Model_rand.v
theories/Model_rect.v
theories/Model_rectpow.v
theories/Model_sparams.v
theories/Model_vector.v
theories/Model_yee.v
theories/Proof_absorb.v
theories/Proof_absorb2.v
theories/Proof_absorb3.v
theories/Proof_absorb4.v
theories/Proof_absorb5.v
theories/Proof_adj.v
theories/Proof_almost.v
theories/Proof_beta.v
theories/Proof_bowtie.v
theories/Proof_bowtie2.v
theories/Proof_bowtie3.v
theories/Proof_bpm.v
theories/Proof_butterfly.v
theories/Proof_cascade.v
theories/Proof_cascade2.v
theories/Proof_columns.v
theories/Proof_comp.v
theories/Proof_conv.v
theories/Proof_conv2.v
theories/Proof_conv3.v
theories/Proof_conv4.v
theories/Proof_cs.v
theories/Proof_cs2.v
theories/Proof_cw.v
theories/Proof_cw2.v
theories/Proof_design.v
theories/Proof_disp.v
theories/Proof_disp2.v
theories/Proof_disp3.v
theories/Proof_drive.v
theories/Proof_duhamel.v
theories/Proof_energy.v
theories/Proof_energy2.v
theories/Proof_energy3.v
theories/Proof_envelope.v
theories/Proof_faberr.v
theories/Proof_fdfd.v
theories/Proof_fdfd2.v
theories/Proof_fdfd3.v
theories/Proof_fdfd4.v
theories/Proof_fdfd5.v
theories/Proof_fdfd6.v
theories/Proof_fdfd7.v
theories/Proof_fdfd8.v
theories/Proof_fdfd9.v
theories/Proof_fdfdad.v
theories/Proof_fdfdc.v
theories/Proof_fdfdc2.v
theories/Proof_fdfdc3.v
theories/Proof_fdfdc4.v
theories/Proof_fdfdcv.v
theories/Proof_fdfdcv2.v
theories/Proof_fdfdcv3.v
theories/Proof_fdfdlay.v
theories/Proof_fdfdlay2.v
theories/Proof_fdfdst.v
theories/Proof_fdfdst2.v
theories/Proof_fdfdsy.v
theories/Proof_fdfdsy2.v
theories/Proof_fdfdsy3.v
theories/Proof_fdfdsy4.v
theories/Proof_fdfdsy5.v
theories/Proof_fdfdtm.v
theories/Proof_fdtd.v
theories/Proof_fdtd2.v
theories/Proof_fdtd3.v
theories/Proof_fdtdfl.v
theories/Proof_fdtdfl2.v
theories/Proof_fdtdfl3.v
theories/Proof_fdtdfl4.v
theories/Proof_fdtdfl5.v
theories/Proof_fdtdfl6.v
theories/Proof_fdtdpml.v
theories/Proof_fdtdpml2.v
theories/Proof_fdtdpml3.v
theories/Proof_fdtdpml4.v
theories/Proof_feast.v
theories/Proof_feast2.v
theories/Proof_float.v
theories/Proof_forward.v
theories/Proof_forward2.v
theories/Proof_forward3.v
theories/Proof_forward4.v
theories/Proof_fred.v
theories/Proof_fround.v
theories/Proof_fround2.v
theories/Proof_gauss.v
theories/Proof_grid.v
theories/Proof_harm.v
theories/Proof_harm2.v
theories/Proof_harm3.v
theories/Proof_hess1.v
theories/Proof_hess10.v
theories/Proof_hess2.v
theories/Proof_hess3.v
theories/Proof_hess4.v
theories/Proof_hess5.v
theories/Proof_hess6.v
theories/Proof_hess7.v
theories/Proof_hess8.v
theories/Proof_hess9.v
theories/Proof_hessdist.v
theories/Proof_insitu.v
theories/Proof_insitu2.v
theories/Proof_insitu3.v
theories/Proof_insitu4.v
theories/Proof_insitu5.v
theories/Proof_insitu6.v
theories/Proof_kind.v
theories/Proof_layer.v
theories/Proof_layer2.v
theories/Proof_linalg.v
theories/Proof_lip.v
theories/Proof_local.v
theories/Proof_lockin.v
theories/Proof_matopt.v
theories/Proof_matrix.v
theories/Proof_mesh.v
theories/Proof_meshops.v
theories/Proof_meshops2.v
theories/Proof_meshops3.v
theories/Proof_metric.v
theories/Proof_metric2.v
theories/Proof_mode.v
theories/Proof_mode2.v
theories/Proof_mode3.v
theories/Proof_mode4.v
theories/Proof_mode5.v
theories/Proof_modelib.v
theories/Proof_nbasis.v
theories/Proof_nbasis2.v
theories/Proof_nbasis3.v
theories/Proof_nbasis4.v
theories/Proof_nbasis5.v
theories/Proof_nbasis6.v
theories/Proof_node.v
theories/Proof_nodenull.v
theories/Proof_null.v
theories/Proof_null2.v
theories/Proof_opt.v
theories/Proof_opt2.v
theories/Proof_order.v
theories/Proof_orth.v
theories/Proof_orth2.v
theories/Proof_orth3.v
theories/Proof_orth4.v
theories/Proof_orth5.v
theories/Proof_parse.v
theories/Proof_pert.v
theories/Proof_pert2.v
theories/Proof_pert3.v
theories/Proof_pert4.v
theories/Proof_phase.v
theories/Proof_portaxes.v
theories/Proof_poynting.v
theories/Proof_propjax.v
theories/Proof_pulse.v
theories/Proof_rand.v
theories/Proof_rand2.v
theories/Proof_rect.v
theories/Proof_rect2.v
theories/Proof_rect3.v
theories/Proof_rect4.v
theories/Proof_rect5.v
theories/Proof_rect6.v
theories/Proof_rectpow.v
theories/Proof_reson.v
theories/Proof_reson2.v
theories/Proof_reson3.v
theories/Proof_reson4.v
theories/Proof_scpml.v
theories/Proof_sparams.v
theories/Proof_srcbd.v
theories/Proof_swap.v
theories/Proof_swap2.v
theories/Proof_swap3.v
theories/Proof_sym.v
theories/Proof_sym2.v
theories/Proof_sym3.v
theories/Proof_transform.v
theories/Proof_transform2.v
theories/Proof_tree.v
theories/Proof_tree2.v
theories/Proof_vector.v
theories/Proof_vector2.v
theories/Proof_vunit.v
theories/Proof_vunit2.v
theories/Proof_vunit3.v
theories/Proof_vunit4.v
theories/Proof_yee.v
theories/Proof_yee2.v
theories/Proof_yee3.v
theories/Prop_absorb.v
theories/Prop_adj.v
theories/Prop_almost.v
theories/Prop_arch.v
theories/Prop_beta.v
theories/Prop_bowtie.v
theories/Prop_bpm.v
theories/Prop_cascade.v
theories/Prop_comp.v
theories/Prop_conv.v
theories/Prop_cs.v
theories/Prop_cw.v
theories/Prop_design.v
theories/Prop_drive.v
theories/Prop_faberr.v
theories/Prop_fdfd.v
theories/Prop_fdfdad.v
theories/Prop_fdfdc.v
theories/Prop_fdfdcv.v
theories/Prop_fdfdcv2.v
theories/Prop_fdfdlay.v
theories/Prop_fdfdst.v
theories/Prop_fdfdsy.v
theories/Prop_fdtd.v
theories/Prop_fdtdfl.v
theories/Prop_fdtdpml.v
theories/Prop_feast.v
theories/Prop_float.v
theories/Prop_forward.v
theories/Prop_fround.v
theories/Prop_grid.v
theories/Prop_harm.v
theories/Prop_hess.v
theories/Prop_hessdist.v
theories/Prop_insitu.v
theories/Prop_kind.v
theories/Prop_layer.v
theories/Prop_lockin.v
theories/Prop_matopt.v
theories/Prop_matrix.v
theories/Prop_meshops.v
theories/Prop_metric.v
theories/Prop_mode.v
theories/Prop_modelib.v
theories/Prop_nbasis.v
theories/Prop_nodenull.v
theories/Prop_opt.v
theories/Prop_orth.v
theories/Prop_parse.v
theories/Prop_pert.v
theories/Prop_phase.v
theories/Prop_portaxes.v
theories/Prop_propjax.v
theories/Prop_pulse.v
theories/Prop_rand.v
theories/Prop_rect.v
theories/Prop_rectpow.v
theories/Prop_reson.v
theories/Prop_reson2.v
theories/Prop_retrace.v
theories/Prop_sparams.v
theories/Prop_srcbd.v
theories/Prop_swap.v
theories/Prop_sym.v
theories/Prop_transform.v
theories/Prop_vector.v
theories/Prop_vunit.v
theories/Prop_yee.v
theories/Spec_absorb.v
theories/Spec_adj.v
theories/Spec_beta.v
theories/Spec_bloch.v
theories/Spec_circuit.v
theories/Spec_columns.v
theories/Spec_comp.v
theories/Spec_conv.v
theories/Spec_cs.v
theories/Spec_cw.v
theories/Spec_design.v
theories/Spec_disp.v
theories/Spec_drive.v
theories/Spec_fdfd.v
theories/Spec_fdfdad.v
theories/Spec_fdfdc.v
theories/Spec_fdfdcv.v
theories/Spec_fdfdcv2.v
theories/Spec_fdfdlay.v
theories/Spec_fdfdst.v
theories/Spec_fdfdsy.v
theories/Spec_fdfdtm.v
theories/Spec_fdtd.v
theories/Spec_fdtdfl.v
theories/Spec_fdtdpml.v
theories/Spec_feast.v
theories/Spec_float.v
theories/Spec_fround.v
theories/Spec_grid.v
theories/Spec_harm.v
theories/Spec_hess.v
theories/Spec_insitu.v
theories/Spec_layer.v
theories/Spec_lockin.v
theories/Spec_matopt.v
theories/Spec_mesh.v
theories/Spec_meshops.v
theories/Spec_metric.v
theories/Spec_mode.v
theories/Spec_modelib.v
theories/Spec_nodenull.v
theories/Spec_null.v
theories/Spec_opt.v
theories/Spec_orth.v
theories/Spec_parse.v
theories/Spec_pert.v
theories/Spec_portaxes.v
theories/Spec_poynting.v
theories/Spec_pulse.v
theories/Spec_rand.v
theories/Spec_rect.v
theories/Spec_reson.v
theories/Spec_reson2.v
theories/Spec_sparams.v
theories/Spec_swap.v
theories/Spec_sym.v
theories/Spec_transform.v
theories/Spec_tree.v
theories/Spec_vunit.v
theories/Spec_yee.v
