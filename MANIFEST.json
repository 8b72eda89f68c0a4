{
 "claims": [
  {
   "property": "C01",
   "status": "proved",
   "theorems": [
    "C01_add",
    "C01_sub"
   ],
   "note": "any key type; uniq = dict has no duplicate key"
  },
  {
   "property": "C02",
   "status": "proved",
   "theorems": [
    "C02_mul",
    "C02_rmul",
    "C02_pow"
   ],
   "note": ""
  },
  {
   "property": "C03",
   "status": "proved",
   "theorems": [
    "C03_merge"
   ],
   "note": ""
  },
  {
   "property": "C04",
   "status": "proved",
   "theorems": [
    "C04_mismatch",
    "C04_pow_guard",
    "C04_match_ok"
   ],
   "note": ""
  },
  {
   "property": "C05",
   "status": "proved",
   "theorems": [
    "C05_remove_zero"
   ],
   "note": ""
  },
  {
   "property": "C06",
   "status": "proved",
   "theorems": [
    "C06_mul_poly"
   ],
   "note": ""
  },
  {
   "property": "C07",
   "status": "proved",
   "theorems": [
    "C07_comb",
    "C07_comb_partial_sum",
    "C07_multinomial"
   ],
   "note": ""
  },
  {
   "property": "C08",
   "status": "proved",
   "theorems": [
    "C08_multilevel_comb",
    "C08_multilevel_index",
    "C08_comb_one_returns_int",
    "C08_index_m0_never_ends"
   ],
   "note": "outside the documented domain: n=1 returns an int, multilevel_index(n>=2, 0) loops forever"
  },
  {
   "property": "C09",
   "status": "proved",
   "theorems": [
    "C09_fZ",
    "C09_fZ_no_level",
    "C09_fZ_no_jump"
   ],
   "note": "floating point replaced by reals"
  },
  {
   "property": "C10",
   "status": "proved",
   "theorems": [
    "C10_simplify_rho",
    "C10_raises_iff_odd",
    "C10_negative_power_dropped_refuted"
   ],
   "note": "the last theorem shows that negative even powers are dropped, so the non-negativity hypothesis is needed"
  },
  {
   "property": "C11",
   "status": "proved",
   "theorems": [
    "C11_mnorm",
    "C11_mnorm_stein",
    "C11_mnorm_negative",
    "C11_cmnorm"
   ],
   "note": "moments are derivatives of the normal MGF at 0"
  },
  {
   "property": "C12",
   "status": "proved",
   "theorems": [
    "C12_int_et",
    "C12_negative"
   ],
   "note": "Coquelicot Riemann integral"
  },
  {
   "property": "C13",
   "status": "proved",
   "theorems": [
    "C13_moment_v",
    "C13_gamma_law",
    "C13_negative"
   ],
   "note": "product formula and derivatives at 0 of the Gamma MGF; negative order raises UnboundLocalError"
  },
  {
   "property": "C14",
   "status": "proved",
   "theorems": [
    "C14_moments",
    "C14_solution",
    "C14_unique",
    "C14_ode",
    "C14_order0"
   ],
   "note": "the moment equations are stated as a system of integral equations (Spec/Ito.v); existence and uniqueness proved"
  },
  {
   "property": "C15",
   "status": "proved",
   "theorems": [
    "C15_never_raises",
    "C15_negative_total",
    "C15_negative_component_refuted"
   ],
   "note": "the last theorem shows that non-negativity of each order is needed"
  },
  {
   "property": "C16",
   "status": "proved",
   "theorems": [
    "C16_odd_vanish",
    "C16_first_slot"
   ],
   "note": ""
  },
  {
   "property": "C17",
   "status": "proved",
   "theorems": [
    "C17_mcpp",
    "C17_mcpp_original",
    "C17_recurrence",
    "C17_negative"
   ],
   "note": "n-th derivative at 0 of the compound Poisson MGF"
  },
  {
   "property": "C18",
   "status": "proved",
   "theorems": [
    "C18_cmcpp",
    "C18_cmcpp_01"
   ],
   "note": ""
  },
  {
   "property": "C19",
   "status": "proved",
   "theorems": [
    "C19_moment_y",
    "C19_negative",
    "C21_hypotheses_hold"
   ],
   "note": "For every linear expectation operator under which v has the stationary Gamma moments and the Ito integrals have, given v, the moments of the Ito system (Spec/Ito.v), moment_y(l) evaluates to E[ret^l]; such operators exist for all parameters and orders (C21_hypotheses_hold)."
  },
  {
   "property": "C20",
   "status": "proved",
   "theorems": [
    "C20_cmoment_y",
    "C20_mean",
    "C20_order_1"
   ],
   "note": ""
  },
  {
   "property": "C21",
   "status": "proved",
   "theorems": [
    "C21_moment_yy",
    "C21_cov_yy",
    "C21_stationary_return",
    "C21_zero_order",
    "C21_hypotheses_hold"
   ],
   "note": "Stationarity of v over consecutive intervals is derived, not assumed (stationary_next)."
  },
  {
   "property": "C22",
   "status": "proved",
   "theorems": [
    "C22_dpoly_m1",
    "C22_dpoly_cm1",
    "C22_dpoly_mj",
    "C22_dpoly_cmj",
    "C22_unknown_name",
    "C22_names"
   ],
   "note": "poly2num is modelled over the reals instead of floats."
  },
  {
   "property": "C23",
   "status": "proved",
   "theorems": [
    "C23_moment_y",
    "C23_cmoment_y",
    "C23_moment_yy",
    "C23_cov_yy",
    "C23_hypotheses_hold"
   ],
   "note": "Jump sums independent of the returns of C19-C21; such operators exist for all parameters and orders."
  },
  {
   "property": "C24",
   "status": "proved",
   "theorems": [
    "C24_cmoments_y_to",
    "C24_mean",
    "C24_simplify",
    "C24_simplify_other",
    "C24_cond_cm",
    "C24_hypotheses_hold"
   ],
   "note": "cond_cm is right for l >= 1; for l <= 0 it returns 0 (C35_cond_cm_0_refuted)."
  },
  {
   "property": "C25",
   "status": "partial",
   "theorems": [
    "C25_int_et_partial",
    "C25_int_et_refuted",
    "C25_opposite",
    "C25_negative"
   ],
   "note": "The statement fails for n1+n2=0 with n1 nonzero: int_et tests n1+n2==0 and returns the integral of s^m (C25_opposite); it is proved for all other n1, n2."
  },
  {
   "property": "C26",
   "status": "partial",
   "theorems": [
    "C26_never_raises",
    "C26_moments_partial",
    "C26_recursion_partial",
    "C26_int_mIEI_IEII",
    "C26_refuted",
    "C26_recursion_refuted",
    "C26_missing_term",
    "C26_solution_exists",
    "C26_unique"
   ],
   "note": "The recursion is an if/elif chain and keeps only the first applicable pair, so the documented equation fails, e.g. at (2,1,0,0,0) (C26_missing_term). It is proved for the index set itos_good, which contains all orders up to 2."
  },
  {
   "property": "C27",
   "status": "proved",
   "theorems": [
    "C27_dpoly_m",
    "C27_dpoly_cm",
    "C27_dpoly_mj",
    "C27_dpoly_cmj",
    "C27_unknown_name",
    "C27_names"
   ],
   "note": "poly2num over the reals; a factor with positive exponent may vanish."
  },
  {
   "property": "C28",
   "status": "proved",
   "theorems": [
    "C28_cov_yy",
    "C28_moment_y",
    "C28_cmoment_y",
    "C28_moment_yy",
    "C28_jump_cov_yy",
    "C28_hypotheses_hold"
   ],
   "note": "The jump theorems take the 2FSV values as the moments of Y; operators with these moments exist for all parameters and orders."
  },
  {
   "property": "C29",
   "status": "proved",
   "theorems": [
    "C29_moment_IEZ",
    "C29_recurrence",
    "C29_negative",
    "C29_cmoment_IEZ",
    "C29_decode_power"
   ],
   "note": "The moments are stated as derivatives of the moment generating function of int_s^t e^{ku} dZ_u."
  },
  {
   "property": "C30",
   "status": "proved",
   "theorems": [
    "C30_moment_ie_iez",
    "C30_moment_ie",
    "C30_negative",
    "C30_negative_ie",
    "C30_keyfor_missing",
    "C30_cmoment_ie_iez",
    "C30_cmoment_expectation",
    "C30_moment_x",
    "C30_moment_v",
    "C30_cmoment_x",
    "C30_cmoment_v"
   ],
   "note": "The moment equations are stated as a linear Volterra system from Ito's formula; uniqueness of its solution is proved. moment_ie_iez(2,0) lacks the keyfor attribute."
  },
  {
   "property": "C31",
   "status": "proved",
   "theorems": [
    "C31_stationary",
    "C31_unique",
    "C31_cmoment_v",
    "C31_negative",
    "C31_moment_v"
   ],
   "note": "The conditional law enters through its moments (the Volterra system of C30); the cancellations tested by divide are proved by independence of Laurent monomials."
  },
  {
   "property": "C32",
   "status": "proved",
   "theorems": [
    "C32_int_et_fZ",
    "C32_int_et_fZ_negative",
    "C32_int_e_poly",
    "C32_missing_exponents"
   ],
   "note": "int_et_fZ is the integral from the running maximum of the jump times to t; int_e_poly integrates every Poly of that keyfor for every jump path with positive jump times."
  },
  {
   "property": "C33",
   "status": "partial",
   "theorems": [
    "C33_int_e_IEZ_poly_partial",
    "C33_total",
    "C33_int_e_IEZ_poly_refuted",
    "C33_corrected"
   ],
   "note": "The full statement is false of the code: k6..k9 are rebound inside the loop over the terms of int_et_fZ, so increments accumulate (refutation: integrand e^{ks} s IEZ_s). Proved where every term has no power of t or no exponential left; a version with the tuples rebuilt per term is right for every Poly."
  },
  {
   "property": "C34",
   "status": "proved",
   "theorems": [
    "C34_sv_cmoments_y_to",
    "C34_sv_cmoment_y",
    "C34_sv_moments_y_to",
    "C34_sv_moment_y",
    "C34_svij_cmoments_y_to",
    "C34_svij_cmoment_y",
    "C34_svij_moments_y_to",
    "C34_svij_moment_y",
    "C34_hypotheses_hold",
    "C34_simplify_0",
    "C34_simplify_1",
    "C34_sv_cmom_poly2num",
    "C34_sv_mom_poly2num",
    "C34_svij_cmom_poly2num",
    "C34_svij_mom_poly2num"
   ],
   "note": "Relative to the joint moments that ito_cond_mom.moment_IEII returns (C43 compares with the true ones): for every expectation whose joint moments of (IE, I, I*) are the values of moment_IEII, the tables hold the (central) moments of the return; svij adds an independent compound Poisson sum."
  },
  {
   "property": "C35",
   "status": "partial",
   "theorems": [
    "C35_factor_models",
    "C35_srjd",
    "C35_srjd_central",
    "C35_srjd_stationary",
    "C35_svcj",
    "C35_svcj_stationary",
    "C35_cond2",
    "C35_cmoments_y_to_0",
    "C35_svvj_svij_entry_0",
    "C35_svvj_cmoment_y_0",
    "C35_svij_cmoment_y_0",
    "C35_cond_cm_0_refuted",
    "C35_cond_cmom_not_one_refuted",
    "C35_svvj_cmoment_y_0_refuted",
    "C35_svij_cmoment_y_0_refuted",
    "C45_order_0_refuted"
   ],
   "note": "The order-0 moments of all models are 1 (and the order-1 central moments 0) for all parameters, except: cond_cm(0) (1fsv) and cmoment_y(0) (svvj, svij, svcj given the jumps) return the last entry of a table of length 2, which is 0; m(0) of svcj given the jumps raises IndexError; where poly2num divides by k, k = 0 raises ZeroDivisionError."
  },
  {
   "property": "C36",
   "status": "proved",
   "theorems": [
    "C36_moment_ieziziz",
    "C36_forward",
    "C36_negative"
   ],
   "note": "All orders. The value is the mixed derivative at 0 of the moment generating function (Campbell formula for the marks (e^{ku}J, J, J*)); C36_forward states the same moments as the solution of the forward equation in t, from which the cumulant recursion of the code is not visible. No exponent is negative, in particular that of t-s."
  },
  {
   "property": "C37",
   "status": "proved",
   "theorems": [
    "C37_moment_ieii_ieziziz",
    "C37_moments_exist",
    "C37_expand_ieziziz",
    "C37_negative"
   ],
   "note": "moment_ieii_ieziziz returns for all non-negative orders (no missing table entry, the 'poly is empty' exception is unreachable), its keys have non-negative exponents except for e^{kt}, and its value is the solution of the moment equations (Ito's formula) for every solution; the equations have a solution."
  },
  {
   "property": "C38",
   "status": "proved",
   "theorems": [
    "C38_cond_moment_y",
    "C38_cond_cmoment_y",
    "C38_moment_y",
    "C38_cmoment_y",
    "C38_negative"
   ],
   "note": "Conditional moments and central moments of the return y = mu t - IV/2 + rho I + sqrt(1-rho^2) I* + rhoJ IZ + IZ* for every law of the six integrals with the moments of C37, and stationary ones when the initial variance has the moments of mdl_srjd.cmom (C31). expand_sqrt and remove_mu_column never raise; the central moment is shown free of mu by realising the formal moments with a signed measure and linear independence of Laurent monomials. poly2num is idealised as exact evaluation."
  },
  {
   "property": "C39",
   "status": "partial",
   "theorems": [
    "C39_classify",
    "C39_classify_gap",
    "C39_classify_refuted",
    "C39_csv_guard",
    "C39_csv_empty",
    "C39_index_l",
    "C39_csv_rows",
    "C39_csv_columns",
    "C39_csv_srjd",
    "C39_csv_plain",
    "C39_classify_csv",
    "C39_csv_header_level_0_refuted",
    "C39_csv_header_last_refuted"
   ],
   "note": "classify needs the jump levels to be contiguous from 0; otherwise it raises (refuted in general). write_to_csv refuses mixed levels; rows hold the terms and determine them; header and rows have the same number of columns at level >= 1 when names follow the tuples, and otherwise the header has one empty name too many (refuted)."
  },
  {
   "property": "C40",
   "status": "proved",
   "theorems": [
    "C40_moment_y",
    "C40_central",
    "C40_moment_yy",
    "C40_order_two",
    "C40_hypotheses_hold",
    "C40_tables_exist"
   ],
   "note": "Conditional on the conditional moments being those of moment_IEI_IEII; by C40_order_two these are the true ones up to total order 2, by C26_refuted not beyond."
  },
  {
   "property": "C41",
   "status": "partial",
   "theorems": [
    "C41_moments_exist",
    "C41_moments_unique",
    "C41_moment_IEII_total",
    "C41_moment_IEII_negative",
    "C41_moment_IEII_partial",
    "C41_moment_IEII_refuted",
    "C41_recursion_right",
    "C41_corrected"
   ],
   "note": "moment_IEII given the jump path is right up to order 3 and for powers of IE at every order; the full statement is false from order 4 on because of the defect in int_e_IEZ_poly (C33). With any right integration routine in its place the recursion is right at every order."
  },
  {
   "property": "C42",
   "status": "proved",
   "theorems": [
    "C42_moment_IE",
    "C42_moment_v",
    "C42_cmoment_v",
    "C42_negative",
    "C42_fZ",
    "C42_poly2num",
    "C42_hypotheses_hold"
   ],
   "note": "All orders, jump paths and parameters with k<>0; moment_v and cmoment_v are stated for any linear expectation whose moments of IE are the ones of the model. poly2num over the reals."
  },
  {
   "property": "C43",
   "status": "partial",
   "theorems": [
    "C43_sv_cmoments_partial",
    "C43_sv_moments_partial",
    "C43_svij_cmoments_partial",
    "C43_svij_moments_partial",
    "C43_corrected",
    "C43_hypotheses_hold",
    "C43_sv_cmoment_4_refuted"
   ],
   "note": "Right up to order 3 for all four tables; false at order 4 because of the defect in int_e_IEZ_poly (C33): refuted with one jump. With the corrected integration routine all orders are right."
  },
  {
   "property": "C44",
   "status": "proved",
   "theorems": [
    "C44_cmoments_y_to",
    "C44_cmoment_y",
    "C44_moments_y_to",
    "C44_moment_y",
    "C44_moment_IZs",
    "C44_cmoment_IZs",
    "C44_cmom_poly2num",
    "C44_mom_poly2num",
    "C44_cm",
    "C44_m",
    "C44_hypotheses_hold",
    "C44_mnorm_cond"
   ],
   "note": "Relative to the joint moments of (IE, I, I*) that moment_IEII returns (given_code); C44_hypotheses_hold shows such expectations exist for every parameter, path and order."
  },
  {
   "property": "C45",
   "status": "partial",
   "theorems": [
    "C45_cmoments_partial",
    "C45_moments_partial",
    "C45_corrected",
    "C45_hypotheses_hold",
    "C45_cmoment_4_refuted",
    "C45_order_0_refuted"
   ],
   "note": "True moments up to order 3, and at all orders with int_e_IEZ_poly corrected; refuted for the code at order 4 with one jump; m(0, par) raises IndexError and cmoment_y(0, J) is the order-1 entry."
  },
  {
   "property": "C46",
   "status": "proved",
   "theorems": [
    "C46_1fsv",
    "C46_1fsvj",
    "C46_2fsv",
    "C46_2fsvj",
    "C46_value_1fsv",
    "C46_value_1fsvj",
    "C46_true_1fsv",
    "C46_true_1fsvj",
    "C46_unknown_name",
    "C46_hypotheses_hold"
   ],
   "note": "Real arithmetic for floats; a parameter missing from the dict (KeyError) is not modelled. The two-factor theorems assume that no denominator of the moment vanishes at the parameter point, where Python raises ZeroDivisionError."
  },
  {
   "property": "C47",
   "status": "partial",
   "theorems": [
    "C47_srjd_cond",
    "C47_srjd_ie_iez",
    "C47_iez",
    "C47_iez_cm_refuted",
    "C47_srjd_cond2",
    "C47_svcj_ieziziz",
    "C47_svcj_ieii",
    "C47_svcj_cond",
    "C47_svcj_stat",
    "C47_missing",
    "C47_negative"
   ],
   "note": "Holds for all the listed functions except iez_cmom.cm, which calls poly2num without the parameter dict and always raises TypeError (C47_iez_cm_refuted). Real arithmetic for floats."
  },
  {
   "property": "C48",
   "status": "proved",
   "theorems": [
    "C48_r1FSV",
    "C48_r1FSV_iid",
    "C48_r1FSVJ",
    "C48_r2FSV",
    "C48_r2FSVJ",
    "C48_errors",
    "C48_balance",
    "C48_mean_variance",
    "C48_mean_variance_2fsv",
    "C48_limit"
   ],
   "note": "The random generator is a stream of numbers, one per call; floats are reals. The law of the Poisson number of jumps is not used: the jump sums are proved for every stream."
  },
  {
   "property": "C49",
   "status": "proved",
   "theorems": [
    "C49_rSVVJ",
    "C49_rSVCJ",
    "C49_rSVIJ",
    "C49_mean_variance",
    "C49_code_mean",
    "C49_svcj_mean_variance",
    "C49_svcj_code_mean",
    "C49_errors"
   ],
   "note": "The random generators are one stream of numbers, one per call; floats are reals. For rSVIJ the law of the Poisson number is not used: its rows are proved for every stream."
  },
  {
   "property": "C50",
   "status": "proved",
   "theorems": [
    "C50_ncx2_mean_variance",
    "C50_moments",
    "C50_code",
    "C50_errors",
    "C50_coincident"
   ],
   "note": "The generator is an arbitrary stream whose draws are nonnegative and have the noncentral chi-square moments given the earlier draws; floats are reals."
  },
  {
   "property": "C51",
   "status": "partial",
   "theorems": [
    "C51_rSVVJ_partial",
    "C51_rSVIJ_partial",
    "C51_rSVCJ_beyond",
    "C51_rSVCJ_refuted",
    "C51_rSRJD_beyond",
    "C51_rSRJD_refuted"
   ],
   "note": "Holds for rSVVJ and rSVIJ. False for rSVCJ, which adds a price jump for every variance jump given, and for rSRJD, whose end time becomes the last jump time."
  },
  {
   "property": "C52",
   "status": "partial",
   "theorems": [
    "C52_third_moment",
    "C52_third_central",
    "C52_third_jump",
    "C52_lost_positive",
    "C52_refuted"
   ],
   "note": "False: for all positive parameters the returned third (central) moment is strictly below that of the model, because itos_mom.py drops the cross term of (IE_i, I_i) at order three. The exact difference is proved in closed form."
  },
  {
   "property": "C53",
   "status": "partial",
   "theorems": [
    "C53_txt",
    "C53_names",
    "C53_txt_name",
    "C53_csv_rows",
    "C53_csv_same",
    "C53_csv_two_factor",
    "C53_csv_header_refuted",
    "C53_subpolys"
   ],
   "note": "Holds except that for the two-factor models no row of the csv file has as many columns as the header: the first name and the tuples of the keys contain commas. C53_csv_two_factor says so for every key."
  },
  {
   "property": "C54",
   "status": "proved",
   "theorems": [
    "C54_1fsv",
    "C54_1fsvj",
    "C54_2fsv",
    "C54_2fsvj",
    "C54_1fsv_derivatives",
    "C54_1fsvj_derivatives",
    "C54_2fsv_derivatives",
    "C54_2fsvj_derivatives",
    "C54_unknown_name",
    "C54_cond_cm",
    "C54_k_nonzero"
   ],
   "note": "The values are real numbers; |rho| <= 1 (every rho: C58); h = 0 is not covered for cond_cm."
  },
  {
   "property": "C55",
   "status": "proved",
   "theorems": [
    "C55_1fsv",
    "C55_1fsvj",
    "C55_2fsv",
    "C55_2fsvj",
    "C55_integrals"
   ],
   "note": "Values are those of Scalar.v (real numbers, total dict)."
  },
  {
   "property": "C56",
   "status": "proved",
   "theorems": [
    "C56_1fsv",
    "C56_1fsvj",
    "C56_2fsv",
    "C56_2fsvj"
   ],
   "note": "Values are those of Scalar.v (real numbers, total dict)."
  },
  {
   "property": "C57",
   "status": "proved",
   "theorems": [
    "C57_integrals",
    "C57_integrals2",
    "C57_keys",
    "C57_value"
   ],
   "note": ""
  },
  {
   "property": "C58",
   "status": "proved",
   "theorems": [
    "C58_1fsv",
    "C58_1fsvj",
    "C58_1fsv_derivatives",
    "C58_1fsvj_derivatives",
    "C58_1fsv_is_derivative",
    "C58_1fsvj_is_derivative"
   ],
   "note": "Real numbers instead of floats."
  },
  {
   "property": "C59",
   "status": "proved",
   "theorems": [
    "C59_fZ",
    "C59_cm_svvj",
    "C59_m_svvj",
    "C59_cm_svij",
    "C59_m_svij",
    "C59_cm_svcj",
    "C59_m_svcj",
    "C59_m_svcj_order_0",
    "C59_m_srjd",
    "C59_cm_srjd",
    "C59_svvj_end",
    "C59_svij_end",
    "C59_svcj_end",
    "C59_srjd_end",
    "C59_jump_powers",
    "C59_jump_powers_real"
   ],
   "note": "Real numbers instead of floats. When both a ZeroDivisionError and an IndexError are due the theorem says one of the two is raised, not which. The end-to-end theorems use the moments of C34, C42, C43, C44, C45."
  },
  {
   "property": "C60",
   "status": "proved",
   "theorems": [
    "C60_1fsvj",
    "C60_2fsvj",
    "C60_svij",
    "C60_svcj",
    "C60_srjd_stat",
    "C60_svcj_1fsv"
   ],
   "note": "Equality of the values of the modelled functions over the reals; C60_2fsvj also holds where Python would divide by zero, with the convention of the real division of Coq. For the functions given the jumps the dict is complete, |rho| <= 1 and no jump comes after h."
  },
  {
   "property": "C61",
   "status": "proved",
   "theorems": [
    "C61_1fsv",
    "C61_2fsv",
    "C61_svvj",
    "C61_svij",
    "C61_svcj",
    "C61_srjd",
    "C61_srjd2",
    "C61_svcj_v0",
    "C61_orders"
   ],
   "note": "Real numbers instead of floats. For the functions given the jumps and those of mdl_srjd and mdl_svcj the dict is complete."
  },
  {
   "property": "C62",
   "status": "proved",
   "theorems": [
    "C62_1fsv",
    "C62_2fsv",
    "C62_svvj",
    "C62_svij",
    "C62_svcj",
    "C62_svcj_v0",
    "C62_dm_1fsv",
    "C62_dm_2fsv",
    "C62_cov_1fsv",
    "C62_cov_2fsv",
    "C62_cov11",
    "C62_dcov11_1fsv"
   ],
   "note": "Real numbers instead of floats. The two-factor derivatives assume that the denominators of the polynomial are defined at the parameters (C46)."
  },
  {
   "property": "C63",
   "status": "proved",
   "theorems": [
    "C63_comb",
    "C63_moment_EJ",
    "C63_index",
    "C63_r1FSVJ",
    "C63_r2FSVJ",
    "C63_rSVIJ",
    "C63_short",
    "C63_keyfor_ve_IEII_vn"
   ],
   "note": "The random generators are arbitrary functions of their arguments (C48, C49)."
  },
  {
   "property": "C64",
   "status": "proved",
   "theorems": [
    "C64_1fsv",
    "C64_1fsvj",
    "C64_2fsv",
    "C64_2fsvj",
    "C64_srjd",
    "C64_srjd_stat",
    "C64_svcj",
    "C64_positive_1f",
    "C64_positive_2f",
    "C64_positive_srjd",
    "C64_positive_svcj"
   ],
   "note": "Real numbers instead of floats. Orders 1 and 2 (and lag one) only, all parameters."
  },
  {
   "property": "C65",
   "status": "proved",
   "theorems": [
    "C65_1fsv",
    "C65_svcj",
    "C65_total_1fsv",
    "C65_total_svcj",
    "C65_positive_1fsv",
    "C65_positive_svcj",
    "C65_svvj",
    "C65_svij",
    "C65_svcj_path",
    "C65_positive_path"
   ],
   "note": "Given the jumps: from the system of moment equations at order 2 and linearity. Otherwise the orders 1 and 2 of the generated polynomials are computed by the kernel, the integrals by antiderivatives; valid for all real parameters with k nonzero."
  },
  {
   "property": "C66",
   "status": "proved",
   "theorems": [
    "C66_1fsv",
    "C66_2fsv",
    "C66_srjd",
    "C66_svcj",
    "C66_cond"
   ],
   "note": ""
  },
  {
   "property": "C67",
   "status": "proved",
   "theorems": [
    "C67_h0_1fsv",
    "C67_theta0_1fsv",
    "C67_sigma0_1fsv",
    "C67_sigma0_1fsvj",
    "C67_h0_1fsvj",
    "C67_theta0_1fsvj"
   ],
   "note": "m, cm and cov of mdl_1fsv at h = 0, theta = 0 and sigma_v = 0: the exact moments of the constant, respectively normal, return; mdl_1fsvj likewise, with the compound Poisson sum added. The laws are given by their moment generating functions (Spec/Cpp.v)."
  },
  {
   "property": "C68",
   "status": "proved",
   "theorems": [
    "C68_1fsv",
    "C68_1fsvj"
   ],
   "note": "From C46 and a realisation of the model of each order."
  }
 ]
}