# Assumptions per theorem

Output of `Print Assumptions` for every theorem named in MANIFEST.json (generated).

Axioms that occur, all from the Coq standard library:

* `ClassicalDedekindReals.sig_forall_dec`
* `ClassicalDedekindReals.sig_not_dec`
* `Classical_Prop.classic`
* `FunctionalExtensionality.functional_extensionality_dep`

| property | theorem | axioms |
|---|---|---|
| C01 | C01_add | functional_extensionality_dep, sig_forall_dec |
| C01 | C01_sub | functional_extensionality_dep, sig_forall_dec |
| C02 | C02_mul | functional_extensionality_dep, sig_forall_dec |
| C02 | C02_rmul | functional_extensionality_dep, sig_forall_dec |
| C02 | C02_pow | functional_extensionality_dep, sig_forall_dec |
| C03 | C03_merge | functional_extensionality_dep, sig_forall_dec |
| C04 | C04_mismatch | none (closed under the global context) |
| C04 | C04_pow_guard | none (closed under the global context) |
| C04 | C04_match_ok | none (closed under the global context) |
| C05 | C05_remove_zero | functional_extensionality_dep, sig_forall_dec |
| C06 | C06_mul_poly | functional_extensionality_dep, sig_forall_dec |
| C07 | C07_comb | functional_extensionality_dep, sig_forall_dec |
| C07 | C07_comb_partial_sum | functional_extensionality_dep, sig_forall_dec |
| C07 | C07_multinomial | functional_extensionality_dep, sig_forall_dec |
| C08 | C08_multilevel_comb | none (closed under the global context) |
| C08 | C08_multilevel_index | none (closed under the global context) |
| C08 | C08_comb_one_returns_int | none (closed under the global context) |
| C08 | C08_index_m0_never_ends | none (closed under the global context) |
| C09 | C09_fZ | functional_extensionality_dep, sig_forall_dec, sig_not_dec |
| C09 | C09_fZ_no_level | sig_forall_dec |
| C09 | C09_fZ_no_jump | functional_extensionality_dep, sig_forall_dec, sig_not_dec |
| C10 | C10_simplify_rho | functional_extensionality_dep, sig_forall_dec, sig_not_dec |
| C10 | C10_raises_iff_odd | none (closed under the global context) |
| C10 | C10_negative_power_dropped_refuted | functional_extensionality_dep, sig_forall_dec, sig_not_dec |
| C11 | C11_mnorm | functional_extensionality_dep, sig_forall_dec, sig_not_dec |
| C11 | C11_mnorm_stein | functional_extensionality_dep, sig_forall_dec, sig_not_dec |
| C11 | C11_mnorm_negative | none (closed under the global context) |
| C11 | C11_cmnorm | functional_extensionality_dep, sig_forall_dec, sig_not_dec |
| C12 | C12_int_et | functional_extensionality_dep, sig_forall_dec, sig_not_dec |
| C12 | C12_negative | none (closed under the global context) |
| C13 | C13_moment_v | functional_extensionality_dep, sig_forall_dec |
| C13 | C13_gamma_law | classic, functional_extensionality_dep, sig_forall_dec, sig_not_dec |
| C13 | C13_negative | none (closed under the global context) |
| C14 | C14_moments | functional_extensionality_dep, sig_forall_dec, sig_not_dec |
| C14 | C14_solution | functional_extensionality_dep, sig_forall_dec, sig_not_dec |
| C14 | C14_unique | functional_extensionality_dep, sig_forall_dec, sig_not_dec |
| C14 | C14_ode | functional_extensionality_dep, sig_forall_dec, sig_not_dec |
| C14 | C14_order0 | functional_extensionality_dep, sig_forall_dec, sig_not_dec |
| C15 | C15_never_raises | functional_extensionality_dep, sig_forall_dec, sig_not_dec |
| C15 | C15_negative_total | none (closed under the global context) |
| C15 | C15_negative_component_refuted | none (closed under the global context) |
| C16 | C16_odd_vanish | functional_extensionality_dep, sig_forall_dec, sig_not_dec |
| C16 | C16_first_slot | functional_extensionality_dep, sig_forall_dec, sig_not_dec |
| C17 | C17_mcpp | functional_extensionality_dep, sig_forall_dec, sig_not_dec |
| C17 | C17_mcpp_original | functional_extensionality_dep, sig_forall_dec, sig_not_dec |
| C17 | C17_recurrence | functional_extensionality_dep, sig_forall_dec, sig_not_dec |
| C17 | C17_negative | none (closed under the global context) |
| C18 | C18_cmcpp | functional_extensionality_dep, sig_forall_dec, sig_not_dec |
| C18 | C18_cmcpp_01 | functional_extensionality_dep, sig_forall_dec |
| C19 | C19_moment_y | functional_extensionality_dep, sig_forall_dec, sig_not_dec |
| C19 | C19_negative | none (closed under the global context) |
| C19 | C21_hypotheses_hold | functional_extensionality_dep, sig_forall_dec, sig_not_dec |
| C20 | C20_cmoment_y | functional_extensionality_dep, sig_forall_dec, sig_not_dec |
| C20 | C20_mean | functional_extensionality_dep, sig_forall_dec, sig_not_dec |
| C20 | C20_order_1 | none (closed under the global context) |
| C21 | C21_moment_yy | functional_extensionality_dep, sig_forall_dec, sig_not_dec |
| C21 | C21_cov_yy | classic, functional_extensionality_dep, sig_forall_dec, sig_not_dec |
| C21 | C21_stationary_return | classic, functional_extensionality_dep, sig_forall_dec, sig_not_dec |
| C21 | C21_zero_order | classic, functional_extensionality_dep, sig_forall_dec, sig_not_dec |
| C21 | C21_hypotheses_hold | functional_extensionality_dep, sig_forall_dec, sig_not_dec |
| C22 | C22_dpoly_m1 | functional_extensionality_dep, sig_forall_dec, sig_not_dec |
| C22 | C22_dpoly_cm1 | functional_extensionality_dep, sig_forall_dec, sig_not_dec |
| C22 | C22_dpoly_mj | functional_extensionality_dep, sig_forall_dec, sig_not_dec |
| C22 | C22_dpoly_cmj | functional_extensionality_dep, sig_forall_dec, sig_not_dec |
| C22 | C22_unknown_name | none (closed under the global context) |
| C22 | C22_names | none (closed under the global context) |
| C23 | C23_moment_y | functional_extensionality_dep, sig_forall_dec, sig_not_dec |
| C23 | C23_cmoment_y | functional_extensionality_dep, sig_forall_dec, sig_not_dec |
| C23 | C23_moment_yy | functional_extensionality_dep, sig_forall_dec, sig_not_dec |
| C23 | C23_cov_yy | classic, functional_extensionality_dep, sig_forall_dec, sig_not_dec |
| C23 | C23_hypotheses_hold | functional_extensionality_dep, sig_forall_dec, sig_not_dec |
| C24 | C24_cmoments_y_to | functional_extensionality_dep, sig_forall_dec, sig_not_dec |
| C24 | C24_mean | functional_extensionality_dep, sig_forall_dec, sig_not_dec |
| C24 | C24_simplify | functional_extensionality_dep, sig_forall_dec, sig_not_dec |
| C24 | C24_simplify_other | none (closed under the global context) |
| C24 | C24_cond_cm | functional_extensionality_dep, sig_forall_dec, sig_not_dec |
| C24 | C24_hypotheses_hold | functional_extensionality_dep, sig_forall_dec, sig_not_dec |
| C25 | C25_int_et_partial | functional_extensionality_dep, sig_forall_dec, sig_not_dec |
| C25 | C25_int_et_refuted | classic, functional_extensionality_dep, sig_forall_dec, sig_not_dec |
| C25 | C25_opposite | functional_extensionality_dep, sig_forall_dec, sig_not_dec |
| C25 | C25_negative | none (closed under the global context) |
| C26 | C26_never_raises | functional_extensionality_dep, sig_forall_dec, sig_not_dec |
| C26 | C26_moments_partial | functional_extensionality_dep, sig_forall_dec, sig_not_dec |
| C26 | C26_recursion_partial | functional_extensionality_dep, sig_forall_dec, sig_not_dec |
| C26 | C26_int_mIEI_IEII | functional_extensionality_dep, sig_forall_dec, sig_not_dec |
| C26 | C26_refuted | classic, functional_extensionality_dep, sig_forall_dec, sig_not_dec |
| C26 | C26_recursion_refuted | classic, functional_extensionality_dep, sig_forall_dec, sig_not_dec |
| C26 | C26_missing_term | functional_extensionality_dep, sig_forall_dec, sig_not_dec |
| C26 | C26_solution_exists | functional_extensionality_dep, sig_forall_dec, sig_not_dec |
| C26 | C26_unique | functional_extensionality_dep, sig_forall_dec, sig_not_dec |
| C27 | C27_dpoly_m | functional_extensionality_dep, sig_forall_dec, sig_not_dec |
| C27 | C27_dpoly_cm | functional_extensionality_dep, sig_forall_dec, sig_not_dec |
| C27 | C27_dpoly_mj | functional_extensionality_dep, sig_forall_dec, sig_not_dec |
| C27 | C27_dpoly_cmj | functional_extensionality_dep, sig_forall_dec, sig_not_dec |
| C27 | C27_unknown_name | none (closed under the global context) |
| C27 | C27_names | none (closed under the global context) |
| C28 | C28_cov_yy | functional_extensionality_dep, sig_forall_dec, sig_not_dec |
| C28 | C28_moment_y | functional_extensionality_dep, sig_forall_dec, sig_not_dec |
| C28 | C28_cmoment_y | functional_extensionality_dep, sig_forall_dec, sig_not_dec |
| C28 | C28_moment_yy | functional_extensionality_dep, sig_forall_dec, sig_not_dec |
| C28 | C28_jump_cov_yy | functional_extensionality_dep, sig_forall_dec, sig_not_dec |
| C28 | C28_hypotheses_hold | functional_extensionality_dep, sig_forall_dec, sig_not_dec |
| C29 | C29_moment_IEZ | classic, functional_extensionality_dep, sig_forall_dec, sig_not_dec |
| C29 | C29_recurrence | classic, functional_extensionality_dep, sig_forall_dec, sig_not_dec |
| C29 | C29_negative | none (closed under the global context) |
| C29 | C29_cmoment_IEZ | classic, functional_extensionality_dep, sig_forall_dec, sig_not_dec |
| C29 | C29_decode_power | none (closed under the global context) |
| C30 | C30_moment_ie_iez | classic, functional_extensionality_dep, sig_forall_dec, sig_not_dec |
| C30 | C30_moment_ie | classic, functional_extensionality_dep, sig_forall_dec, sig_not_dec |
| C30 | C30_negative | none (closed under the global context) |
| C30 | C30_negative_ie | none (closed under the global context) |
| C30 | C30_keyfor_missing | none (closed under the global context) |
| C30 | C30_cmoment_ie_iez | classic, functional_extensionality_dep, sig_forall_dec, sig_not_dec |
| C30 | C30_cmoment_expectation | classic, functional_extensionality_dep, sig_forall_dec, sig_not_dec |
| C30 | C30_moment_x | classic, functional_extensionality_dep, sig_forall_dec, sig_not_dec |
| C30 | C30_moment_v | classic, functional_extensionality_dep, sig_forall_dec, sig_not_dec |
| C30 | C30_cmoment_x | classic, functional_extensionality_dep, sig_forall_dec, sig_not_dec |
| C30 | C30_cmoment_v | classic, functional_extensionality_dep, sig_forall_dec, sig_not_dec |
| C31 | C31_stationary | classic, functional_extensionality_dep, sig_forall_dec, sig_not_dec |
| C31 | C31_unique | classic, functional_extensionality_dep, sig_forall_dec, sig_not_dec |
| C31 | C31_cmoment_v | classic, functional_extensionality_dep, sig_forall_dec, sig_not_dec |
| C31 | C31_negative | none (closed under the global context) |
| C31 | C31_moment_v | classic, functional_extensionality_dep, sig_forall_dec, sig_not_dec |
| C32 | C32_int_et_fZ | functional_extensionality_dep, sig_forall_dec, sig_not_dec |
| C32 | C32_int_et_fZ_negative | none (closed under the global context) |
| C32 | C32_int_e_poly | functional_extensionality_dep, sig_forall_dec, sig_not_dec |
| C32 | C32_missing_exponents | none (closed under the global context) |
| C33 | C33_int_e_IEZ_poly_partial | functional_extensionality_dep, sig_forall_dec, sig_not_dec |
| C33 | C33_total | functional_extensionality_dep, sig_forall_dec, sig_not_dec |
| C33 | C33_int_e_IEZ_poly_refuted | classic, functional_extensionality_dep, sig_forall_dec, sig_not_dec |
| C33 | C33_corrected | functional_extensionality_dep, sig_forall_dec, sig_not_dec |
| C34 | C34_sv_cmoments_y_to | functional_extensionality_dep, sig_forall_dec, sig_not_dec |
| C34 | C34_sv_cmoment_y | functional_extensionality_dep, sig_forall_dec, sig_not_dec |
| C34 | C34_sv_moments_y_to | functional_extensionality_dep, sig_forall_dec, sig_not_dec |
| C34 | C34_sv_moment_y | functional_extensionality_dep, sig_forall_dec, sig_not_dec |
| C34 | C34_svij_cmoments_y_to | functional_extensionality_dep, sig_forall_dec, sig_not_dec |
| C34 | C34_svij_cmoment_y | functional_extensionality_dep, sig_forall_dec, sig_not_dec |
| C34 | C34_svij_moments_y_to | functional_extensionality_dep, sig_forall_dec, sig_not_dec |
| C34 | C34_svij_moment_y | functional_extensionality_dep, sig_forall_dec, sig_not_dec |
| C34 | C34_hypotheses_hold | functional_extensionality_dep, sig_forall_dec, sig_not_dec |
| C34 | C34_simplify_0 | functional_extensionality_dep, sig_forall_dec, sig_not_dec |
| C34 | C34_simplify_1 | functional_extensionality_dep, sig_forall_dec, sig_not_dec |
| C34 | C34_sv_cmom_poly2num | functional_extensionality_dep, sig_forall_dec, sig_not_dec |
| C34 | C34_sv_mom_poly2num | functional_extensionality_dep, sig_forall_dec, sig_not_dec |
| C34 | C34_svij_cmom_poly2num | functional_extensionality_dep, sig_forall_dec, sig_not_dec |
| C34 | C34_svij_mom_poly2num | functional_extensionality_dep, sig_forall_dec, sig_not_dec |
| C35 | C35_factor_models | functional_extensionality_dep, sig_forall_dec, sig_not_dec |
| C35 | C35_srjd | functional_extensionality_dep, sig_forall_dec, sig_not_dec |
| C35 | C35_srjd_central | functional_extensionality_dep, sig_forall_dec, sig_not_dec |
| C35 | C35_srjd_stationary | functional_extensionality_dep, sig_forall_dec |
| C35 | C35_svcj | functional_extensionality_dep, sig_forall_dec, sig_not_dec |
| C35 | C35_svcj_stationary | functional_extensionality_dep, sig_forall_dec, sig_not_dec |
| C35 | C35_cond2 | functional_extensionality_dep, sig_forall_dec, sig_not_dec |
| C35 | C35_cmoments_y_to_0 | functional_extensionality_dep, sig_forall_dec, sig_not_dec |
| C35 | C35_svvj_svij_entry_0 | functional_extensionality_dep, sig_forall_dec, sig_not_dec |
| C35 | C35_svvj_cmoment_y_0 | functional_extensionality_dep, sig_forall_dec, sig_not_dec |
| C35 | C35_svij_cmoment_y_0 | functional_extensionality_dep, sig_forall_dec, sig_not_dec |
| C35 | C35_cond_cm_0_refuted | functional_extensionality_dep, sig_forall_dec, sig_not_dec |
| C35 | C35_cond_cmom_not_one_refuted | functional_extensionality_dep, sig_forall_dec, sig_not_dec |
| C35 | C35_svvj_cmoment_y_0_refuted | functional_extensionality_dep, sig_forall_dec, sig_not_dec |
| C35 | C35_svij_cmoment_y_0_refuted | functional_extensionality_dep, sig_forall_dec, sig_not_dec |
| C35 | C45_order_0_refuted | functional_extensionality_dep, sig_forall_dec, sig_not_dec |
| C36 | C36_moment_ieziziz | classic, functional_extensionality_dep, sig_forall_dec, sig_not_dec |
| C36 | C36_forward | classic, functional_extensionality_dep, sig_forall_dec, sig_not_dec |
| C36 | C36_negative | none (closed under the global context) |
| C37 | C37_moment_ieii_ieziziz | classic, functional_extensionality_dep, sig_forall_dec, sig_not_dec |
| C37 | C37_moments_exist | classic, functional_extensionality_dep, sig_forall_dec, sig_not_dec |
| C37 | C37_expand_ieziziz | functional_extensionality_dep, sig_forall_dec, sig_not_dec |
| C37 | C37_negative | none (closed under the global context) |
| C38 | C38_cond_moment_y | classic, functional_extensionality_dep, sig_forall_dec, sig_not_dec |
| C38 | C38_cond_cmoment_y | classic, functional_extensionality_dep, sig_forall_dec, sig_not_dec |
| C38 | C38_moment_y | classic, functional_extensionality_dep, sig_forall_dec, sig_not_dec |
| C38 | C38_cmoment_y | classic, functional_extensionality_dep, sig_forall_dec, sig_not_dec |
| C38 | C38_negative | classic, functional_extensionality_dep, sig_forall_dec, sig_not_dec |
| C39 | C39_classify | functional_extensionality_dep, sig_forall_dec |
| C39 | C39_classify_gap | none (closed under the global context) |
| C39 | C39_classify_refuted | none (closed under the global context) |
| C39 | C39_csv_guard | none (closed under the global context) |
| C39 | C39_csv_empty | none (closed under the global context) |
| C39 | C39_index_l | none (closed under the global context) |
| C39 | C39_csv_rows | none (closed under the global context) |
| C39 | C39_csv_columns | none (closed under the global context) |
| C39 | C39_csv_srjd | none (closed under the global context) |
| C39 | C39_csv_plain | none (closed under the global context) |
| C39 | C39_classify_csv | functional_extensionality_dep, sig_forall_dec |
| C39 | C39_csv_header_level_0_refuted | none (closed under the global context) |
| C39 | C39_csv_header_last_refuted | none (closed under the global context) |
| C40 | C40_moment_y | functional_extensionality_dep, sig_forall_dec, sig_not_dec |
| C40 | C40_central | functional_extensionality_dep, sig_forall_dec, sig_not_dec |
| C40 | C40_moment_yy | functional_extensionality_dep, sig_forall_dec, sig_not_dec |
| C40 | C40_order_two | functional_extensionality_dep, sig_forall_dec, sig_not_dec |
| C40 | C40_hypotheses_hold | functional_extensionality_dep, sig_forall_dec, sig_not_dec |
| C40 | C40_tables_exist | functional_extensionality_dep, sig_forall_dec, sig_not_dec |
| C41 | C41_moments_exist | functional_extensionality_dep, sig_forall_dec, sig_not_dec |
| C41 | C41_moments_unique | functional_extensionality_dep, sig_forall_dec, sig_not_dec |
| C41 | C41_moment_IEII_total | functional_extensionality_dep, sig_forall_dec, sig_not_dec |
| C41 | C41_moment_IEII_negative | none (closed under the global context) |
| C41 | C41_moment_IEII_partial | functional_extensionality_dep, sig_forall_dec, sig_not_dec |
| C41 | C41_moment_IEII_refuted | classic, functional_extensionality_dep, sig_forall_dec, sig_not_dec |
| C41 | C41_recursion_right | functional_extensionality_dep, sig_forall_dec, sig_not_dec |
| C41 | C41_corrected | functional_extensionality_dep, sig_forall_dec, sig_not_dec |
| C42 | C42_moment_IE | functional_extensionality_dep, sig_forall_dec, sig_not_dec |
| C42 | C42_moment_v | functional_extensionality_dep, sig_forall_dec, sig_not_dec |
| C42 | C42_cmoment_v | functional_extensionality_dep, sig_forall_dec, sig_not_dec |
| C42 | C42_negative | none (closed under the global context) |
| C42 | C42_fZ | functional_extensionality_dep, sig_forall_dec, sig_not_dec |
| C42 | C42_poly2num | functional_extensionality_dep, sig_forall_dec, sig_not_dec |
| C42 | C42_hypotheses_hold | functional_extensionality_dep, sig_forall_dec, sig_not_dec |
| C43 | C43_sv_cmoments_partial | functional_extensionality_dep, sig_forall_dec, sig_not_dec |
| C43 | C43_sv_moments_partial | functional_extensionality_dep, sig_forall_dec, sig_not_dec |
| C43 | C43_svij_cmoments_partial | functional_extensionality_dep, sig_forall_dec, sig_not_dec |
| C43 | C43_svij_moments_partial | functional_extensionality_dep, sig_forall_dec, sig_not_dec |
| C43 | C43_corrected | functional_extensionality_dep, sig_forall_dec, sig_not_dec |
| C43 | C43_hypotheses_hold | functional_extensionality_dep, sig_forall_dec, sig_not_dec |
| C43 | C43_sv_cmoment_4_refuted | classic, functional_extensionality_dep, sig_forall_dec, sig_not_dec |
| C44 | C44_cmoments_y_to | functional_extensionality_dep, sig_forall_dec, sig_not_dec |
| C44 | C44_cmoment_y | functional_extensionality_dep, sig_forall_dec, sig_not_dec |
| C44 | C44_moments_y_to | functional_extensionality_dep, sig_forall_dec, sig_not_dec |
| C44 | C44_moment_y | functional_extensionality_dep, sig_forall_dec, sig_not_dec |
| C44 | C44_moment_IZs | functional_extensionality_dep, sig_forall_dec, sig_not_dec |
| C44 | C44_cmoment_IZs | functional_extensionality_dep, sig_forall_dec, sig_not_dec |
| C44 | C44_cmom_poly2num | functional_extensionality_dep, sig_forall_dec, sig_not_dec |
| C44 | C44_mom_poly2num | functional_extensionality_dep, sig_forall_dec, sig_not_dec |
| C44 | C44_cm | functional_extensionality_dep, sig_forall_dec, sig_not_dec |
| C44 | C44_m | functional_extensionality_dep, sig_forall_dec, sig_not_dec |
| C44 | C44_hypotheses_hold | functional_extensionality_dep, sig_forall_dec, sig_not_dec |
| C44 | C44_mnorm_cond | functional_extensionality_dep, sig_forall_dec, sig_not_dec |
| C45 | C45_cmoments_partial | functional_extensionality_dep, sig_forall_dec, sig_not_dec |
| C45 | C45_moments_partial | functional_extensionality_dep, sig_forall_dec, sig_not_dec |
| C45 | C45_corrected | functional_extensionality_dep, sig_forall_dec, sig_not_dec |
| C45 | C45_hypotheses_hold | functional_extensionality_dep, sig_forall_dec, sig_not_dec |
| C45 | C45_cmoment_4_refuted | classic, functional_extensionality_dep, sig_forall_dec, sig_not_dec |
| C45 | C45_order_0_refuted | functional_extensionality_dep, sig_forall_dec, sig_not_dec |
| C46 | C46_1fsv | functional_extensionality_dep, sig_forall_dec, sig_not_dec |
| C46 | C46_1fsvj | functional_extensionality_dep, sig_forall_dec, sig_not_dec |
| C46 | C46_2fsv | functional_extensionality_dep, sig_forall_dec, sig_not_dec |
| C46 | C46_2fsvj | functional_extensionality_dep, sig_forall_dec, sig_not_dec |
| C46 | C46_value_1fsv | classic, functional_extensionality_dep, sig_forall_dec, sig_not_dec |
| C46 | C46_value_1fsvj | classic, functional_extensionality_dep, sig_forall_dec, sig_not_dec |
| C46 | C46_true_1fsv | classic, functional_extensionality_dep, sig_forall_dec, sig_not_dec |
| C46 | C46_true_1fsvj | classic, functional_extensionality_dep, sig_forall_dec, sig_not_dec |
| C46 | C46_unknown_name | functional_extensionality_dep, sig_forall_dec, sig_not_dec |
| C46 | C46_hypotheses_hold | functional_extensionality_dep, sig_forall_dec, sig_not_dec |
| C47 | C47_srjd_cond | classic, functional_extensionality_dep, sig_forall_dec, sig_not_dec |
| C47 | C47_srjd_ie_iez | classic, functional_extensionality_dep, sig_forall_dec, sig_not_dec |
| C47 | C47_iez | classic, functional_extensionality_dep, sig_forall_dec, sig_not_dec |
| C47 | C47_iez_cm_refuted | functional_extensionality_dep, sig_forall_dec |
| C47 | C47_srjd_cond2 | functional_extensionality_dep, sig_forall_dec, sig_not_dec |
| C47 | C47_svcj_ieziziz | classic, functional_extensionality_dep, sig_forall_dec, sig_not_dec |
| C47 | C47_svcj_ieii | classic, functional_extensionality_dep, sig_forall_dec, sig_not_dec |
| C47 | C47_svcj_cond | classic, functional_extensionality_dep, sig_forall_dec, sig_not_dec |
| C47 | C47_svcj_stat | classic, functional_extensionality_dep, sig_forall_dec, sig_not_dec |
| C47 | C47_missing | classic, functional_extensionality_dep, sig_forall_dec, sig_not_dec |
| C47 | C47_negative | classic, functional_extensionality_dep, sig_forall_dec, sig_not_dec |
| C48 | C48_r1FSV | functional_extensionality_dep, sig_forall_dec, sig_not_dec |
| C48 | C48_r1FSV_iid | functional_extensionality_dep, sig_forall_dec, sig_not_dec |
| C48 | C48_r1FSVJ | functional_extensionality_dep, sig_forall_dec, sig_not_dec |
| C48 | C48_r2FSV | functional_extensionality_dep, sig_forall_dec, sig_not_dec |
| C48 | C48_r2FSVJ | functional_extensionality_dep, sig_forall_dec, sig_not_dec |
| C48 | C48_errors | functional_extensionality_dep, sig_forall_dec, sig_not_dec |
| C48 | C48_balance | functional_extensionality_dep, sig_forall_dec, sig_not_dec |
| C48 | C48_mean_variance | functional_extensionality_dep, sig_forall_dec, sig_not_dec |
| C48 | C48_mean_variance_2fsv | functional_extensionality_dep, sig_forall_dec, sig_not_dec |
| C48 | C48_limit | classic, functional_extensionality_dep, sig_forall_dec, sig_not_dec |
| C49 | C49_rSVVJ | functional_extensionality_dep, sig_forall_dec, sig_not_dec |
| C49 | C49_rSVCJ | functional_extensionality_dep, sig_forall_dec, sig_not_dec |
| C49 | C49_rSVIJ | functional_extensionality_dep, sig_forall_dec, sig_not_dec |
| C49 | C49_mean_variance | functional_extensionality_dep, sig_forall_dec, sig_not_dec |
| C49 | C49_code_mean | functional_extensionality_dep, sig_forall_dec, sig_not_dec |
| C49 | C49_svcj_mean_variance | functional_extensionality_dep, sig_forall_dec, sig_not_dec |
| C49 | C49_svcj_code_mean | functional_extensionality_dep, sig_forall_dec, sig_not_dec |
| C49 | C49_errors | functional_extensionality_dep, sig_forall_dec, sig_not_dec |
| C50 | C50_ncx2_mean_variance | classic, functional_extensionality_dep, sig_forall_dec, sig_not_dec |
| C50 | C50_moments | classic, functional_extensionality_dep, sig_forall_dec, sig_not_dec |
| C50 | C50_code | classic, functional_extensionality_dep, sig_forall_dec, sig_not_dec |
| C50 | C50_errors | classic, functional_extensionality_dep, sig_forall_dec, sig_not_dec |
| C50 | C50_coincident | classic, functional_extensionality_dep, sig_forall_dec, sig_not_dec |
| C51 | C51_rSVVJ_partial | functional_extensionality_dep, sig_forall_dec, sig_not_dec |
| C51 | C51_rSVIJ_partial | functional_extensionality_dep, sig_forall_dec, sig_not_dec |
| C51 | C51_rSVCJ_beyond | functional_extensionality_dep, sig_forall_dec, sig_not_dec |
| C51 | C51_rSVCJ_refuted | functional_extensionality_dep, sig_forall_dec, sig_not_dec |
| C51 | C51_rSRJD_beyond | classic, functional_extensionality_dep, sig_forall_dec, sig_not_dec |
| C51 | C51_rSRJD_refuted | classic, functional_extensionality_dep, sig_forall_dec, sig_not_dec |
| C52 | C52_third_moment | classic, functional_extensionality_dep, sig_forall_dec, sig_not_dec |
| C52 | C52_third_central | classic, functional_extensionality_dep, sig_forall_dec, sig_not_dec |
| C52 | C52_third_jump | classic, functional_extensionality_dep, sig_forall_dec, sig_not_dec |
| C52 | C52_lost_positive | classic, functional_extensionality_dep, sig_forall_dec, sig_not_dec |
| C52 | C52_refuted | classic, functional_extensionality_dep, sig_forall_dec, sig_not_dec |
| C53 | C53_txt | none (closed under the global context) |
| C53 | C53_names | none (closed under the global context) |
| C53 | C53_txt_name | none (closed under the global context) |
| C53 | C53_csv_rows | none (closed under the global context) |
| C53 | C53_csv_same | none (closed under the global context) |
| C53 | C53_csv_two_factor | none (closed under the global context) |
| C53 | C53_csv_header_refuted | none (closed under the global context) |
| C53 | C53_subpolys | functional_extensionality_dep, sig_forall_dec |
| C54 | C54_1fsv | functional_extensionality_dep, sig_forall_dec, sig_not_dec |
| C54 | C54_1fsvj | functional_extensionality_dep, sig_forall_dec, sig_not_dec |
| C54 | C54_2fsv | functional_extensionality_dep, sig_forall_dec, sig_not_dec |
| C54 | C54_2fsvj | functional_extensionality_dep, sig_forall_dec, sig_not_dec |
| C54 | C54_1fsv_derivatives | functional_extensionality_dep, sig_forall_dec, sig_not_dec |
| C54 | C54_1fsvj_derivatives | functional_extensionality_dep, sig_forall_dec, sig_not_dec |
| C54 | C54_2fsv_derivatives | functional_extensionality_dep, sig_forall_dec, sig_not_dec |
| C54 | C54_2fsvj_derivatives | functional_extensionality_dep, sig_forall_dec, sig_not_dec |
| C54 | C54_unknown_name | functional_extensionality_dep, sig_forall_dec, sig_not_dec |
| C54 | C54_cond_cm | functional_extensionality_dep, sig_forall_dec, sig_not_dec |
| C54 | C54_k_nonzero | sig_forall_dec |
| C55 | C55_1fsv | functional_extensionality_dep, sig_forall_dec, sig_not_dec |
| C55 | C55_1fsvj | functional_extensionality_dep, sig_forall_dec, sig_not_dec |
| C55 | C55_2fsv | functional_extensionality_dep, sig_forall_dec, sig_not_dec |
| C55 | C55_2fsvj | functional_extensionality_dep, sig_forall_dec, sig_not_dec |
| C55 | C55_integrals | none (closed under the global context) |
| C56 | C56_1fsv | functional_extensionality_dep, sig_forall_dec, sig_not_dec |
| C56 | C56_1fsvj | functional_extensionality_dep, sig_forall_dec, sig_not_dec |
| C56 | C56_2fsv | functional_extensionality_dep, sig_forall_dec, sig_not_dec |
| C56 | C56_2fsvj | functional_extensionality_dep, sig_forall_dec, sig_not_dec |
| C57 | C57_integrals | functional_extensionality_dep, sig_forall_dec |
| C57 | C57_integrals2 | none (closed under the global context) |
| C57 | C57_keys | functional_extensionality_dep, sig_forall_dec |
| C57 | C57_value | functional_extensionality_dep, sig_forall_dec, sig_not_dec |
| C58 | C58_1fsv | functional_extensionality_dep, sig_forall_dec, sig_not_dec |
| C58 | C58_1fsvj | functional_extensionality_dep, sig_forall_dec, sig_not_dec |
| C58 | C58_1fsv_derivatives | functional_extensionality_dep, sig_forall_dec, sig_not_dec |
| C58 | C58_1fsvj_derivatives | functional_extensionality_dep, sig_forall_dec, sig_not_dec |
| C58 | C58_1fsv_is_derivative | functional_extensionality_dep, sig_forall_dec, sig_not_dec |
| C58 | C58_1fsvj_is_derivative | functional_extensionality_dep, sig_forall_dec, sig_not_dec |
| C59 | C59_fZ | functional_extensionality_dep, sig_forall_dec, sig_not_dec |
| C59 | C59_cm_svvj | functional_extensionality_dep, sig_forall_dec, sig_not_dec |
| C59 | C59_m_svvj | functional_extensionality_dep, sig_forall_dec, sig_not_dec |
| C59 | C59_cm_svij | functional_extensionality_dep, sig_forall_dec, sig_not_dec |
| C59 | C59_m_svij | functional_extensionality_dep, sig_forall_dec, sig_not_dec |
| C59 | C59_cm_svcj | functional_extensionality_dep, sig_forall_dec, sig_not_dec |
| C59 | C59_m_svcj | functional_extensionality_dep, sig_forall_dec, sig_not_dec |
| C59 | C59_m_svcj_order_0 | functional_extensionality_dep, sig_forall_dec, sig_not_dec |
| C59 | C59_m_srjd | functional_extensionality_dep, sig_forall_dec, sig_not_dec |
| C59 | C59_cm_srjd | functional_extensionality_dep, sig_forall_dec, sig_not_dec |
| C59 | C59_svvj_end | functional_extensionality_dep, sig_forall_dec, sig_not_dec |
| C59 | C59_svij_end | functional_extensionality_dep, sig_forall_dec, sig_not_dec |
| C59 | C59_svcj_end | functional_extensionality_dep, sig_forall_dec, sig_not_dec |
| C59 | C59_srjd_end | functional_extensionality_dep, sig_forall_dec, sig_not_dec |
| C59 | C59_jump_powers | functional_extensionality_dep, sig_forall_dec |
| C59 | C59_jump_powers_real | functional_extensionality_dep, sig_forall_dec |
| C60 | C60_1fsvj | classic, functional_extensionality_dep, sig_forall_dec, sig_not_dec |
| C60 | C60_2fsvj | functional_extensionality_dep, sig_forall_dec, sig_not_dec |
| C60 | C60_svij | functional_extensionality_dep, sig_forall_dec, sig_not_dec |
| C60 | C60_svcj | functional_extensionality_dep, sig_forall_dec, sig_not_dec |
| C60 | C60_srjd_stat | classic, functional_extensionality_dep, sig_forall_dec, sig_not_dec |
| C60 | C60_svcj_1fsv | classic, functional_extensionality_dep, sig_forall_dec, sig_not_dec |
| C61 | C61_1fsv | classic, functional_extensionality_dep, sig_forall_dec, sig_not_dec |
| C61 | C61_2fsv | functional_extensionality_dep, sig_forall_dec, sig_not_dec |
| C61 | C61_svvj | functional_extensionality_dep, sig_forall_dec, sig_not_dec |
| C61 | C61_svij | functional_extensionality_dep, sig_forall_dec, sig_not_dec |
| C61 | C61_svcj | functional_extensionality_dep, sig_forall_dec, sig_not_dec |
| C61 | C61_srjd | classic, functional_extensionality_dep, sig_forall_dec, sig_not_dec |
| C61 | C61_srjd2 | functional_extensionality_dep, sig_forall_dec, sig_not_dec |
| C61 | C61_svcj_v0 | classic, functional_extensionality_dep, sig_forall_dec, sig_not_dec |
| C61 | C61_orders | functional_extensionality_dep, sig_forall_dec |
| C62 | C62_1fsv | classic, functional_extensionality_dep, sig_forall_dec, sig_not_dec |
| C62 | C62_2fsv | functional_extensionality_dep, sig_forall_dec, sig_not_dec |
| C62 | C62_svvj | functional_extensionality_dep, sig_forall_dec, sig_not_dec |
| C62 | C62_svij | functional_extensionality_dep, sig_forall_dec, sig_not_dec |
| C62 | C62_svcj | functional_extensionality_dep, sig_forall_dec, sig_not_dec |
| C62 | C62_svcj_v0 | classic, functional_extensionality_dep, sig_forall_dec, sig_not_dec |
| C62 | C62_dm_1fsv | classic, functional_extensionality_dep, sig_forall_dec, sig_not_dec |
| C62 | C62_dm_2fsv | classic, functional_extensionality_dep, sig_forall_dec, sig_not_dec |
| C62 | C62_cov_1fsv | classic, functional_extensionality_dep, sig_forall_dec, sig_not_dec |
| C62 | C62_cov_2fsv | functional_extensionality_dep, sig_forall_dec, sig_not_dec |
| C62 | C62_cov11 | classic, functional_extensionality_dep, sig_forall_dec, sig_not_dec |
| C62 | C62_dcov11_1fsv | classic, functional_extensionality_dep, sig_forall_dec, sig_not_dec |
| C63 | C63_comb | none (closed under the global context) |
| C63 | C63_moment_EJ | none (closed under the global context) |
| C63 | C63_index | none (closed under the global context) |
| C63 | C63_r1FSVJ | functional_extensionality_dep, sig_forall_dec, sig_not_dec |
| C63 | C63_r2FSVJ | functional_extensionality_dep, sig_forall_dec, sig_not_dec |
| C63 | C63_rSVIJ | functional_extensionality_dep, sig_forall_dec, sig_not_dec |
| C63 | C63_short | functional_extensionality_dep, sig_forall_dec, sig_not_dec |
| C63 | C63_keyfor_ve_IEII_vn | none (closed under the global context) |
| C64 | C64_1fsv | functional_extensionality_dep, sig_forall_dec, sig_not_dec |
| C64 | C64_1fsvj | functional_extensionality_dep, sig_forall_dec, sig_not_dec |
| C64 | C64_2fsv | functional_extensionality_dep, sig_forall_dec, sig_not_dec |
| C64 | C64_2fsvj | functional_extensionality_dep, sig_forall_dec, sig_not_dec |
| C64 | C64_srjd | classic, functional_extensionality_dep, sig_forall_dec, sig_not_dec |
| C64 | C64_srjd_stat | functional_extensionality_dep, sig_forall_dec |
| C64 | C64_svcj | classic, functional_extensionality_dep, sig_forall_dec, sig_not_dec |
| C64 | C64_positive_1f | classic, functional_extensionality_dep, sig_forall_dec, sig_not_dec |
| C64 | C64_positive_2f | classic, functional_extensionality_dep, sig_forall_dec, sig_not_dec |
| C64 | C64_positive_srjd | classic, functional_extensionality_dep, sig_forall_dec, sig_not_dec |
| C64 | C64_positive_svcj | classic, functional_extensionality_dep, sig_forall_dec, sig_not_dec |
| C65 | C65_1fsv | classic, functional_extensionality_dep, sig_forall_dec, sig_not_dec |
| C65 | C65_svcj | classic, functional_extensionality_dep, sig_forall_dec, sig_not_dec |
| C65 | C65_total_1fsv | classic, functional_extensionality_dep, sig_forall_dec, sig_not_dec |
| C65 | C65_total_svcj | classic, functional_extensionality_dep, sig_forall_dec, sig_not_dec |
| C65 | C65_positive_1fsv | classic, functional_extensionality_dep, sig_forall_dec, sig_not_dec |
| C65 | C65_positive_svcj | classic, functional_extensionality_dep, sig_forall_dec, sig_not_dec |
| C65 | C65_svvj | functional_extensionality_dep, sig_forall_dec, sig_not_dec |
| C65 | C65_svij | classic, functional_extensionality_dep, sig_forall_dec, sig_not_dec |
| C65 | C65_svcj_path | classic, functional_extensionality_dep, sig_forall_dec, sig_not_dec |
| C65 | C65_positive_path | classic, functional_extensionality_dep, sig_forall_dec, sig_not_dec |
| C66 | C66_1fsv | none (closed under the global context) |
| C66 | C66_2fsv | none (closed under the global context) |
| C66 | C66_srjd | none (closed under the global context) |
| C66 | C66_svcj | none (closed under the global context) |
| C66 | C66_cond | none (closed under the global context) |
| C67 | C67_h0_1fsv | classic, functional_extensionality_dep, sig_forall_dec, sig_not_dec |
| C67 | C67_theta0_1fsv | classic, functional_extensionality_dep, sig_forall_dec, sig_not_dec |
| C67 | C67_sigma0_1fsv | classic, functional_extensionality_dep, sig_forall_dec, sig_not_dec |
| C67 | C67_sigma0_1fsvj | classic, functional_extensionality_dep, sig_forall_dec, sig_not_dec |
| C67 | C67_h0_1fsvj | classic, functional_extensionality_dep, sig_forall_dec, sig_not_dec |
| C67 | C67_theta0_1fsvj | classic, functional_extensionality_dep, sig_forall_dec, sig_not_dec |
| C68 | C68_1fsv | classic, functional_extensionality_dep, sig_forall_dec, sig_not_dec |
| C68 | C68_1fsvj | classic, functional_extensionality_dep, sig_forall_dec, sig_not_dec |
