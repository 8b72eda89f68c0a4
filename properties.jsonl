{"id": "C01", "title": "Poly + is pointwise addition", "statement": "For two Polys with the same keyfor, p+q evaluates, at any assignment of real values to monomials, to value(p)+value(q); p-q to the difference; the result keeps the keyfor, has no duplicate key and no zero coefficient, and the operands are unchanged.", "quantifier": "all Polys (any number of terms, any rational coefficients, any key set) and all monomial valuations", "why_tests_cant": "The set of polynomials and valuations is infinite; a test fixes a handful of dictionaries and cannot exclude a bad interaction of key collision, cancellation and ordering.", "anchors": ["src/ajdmom/poly.py: Poly.__add__, Poly.__sub__, Poly.remove_zero"]}
{"id": "C02", "title": "Poly * is the product of values", "statement": "For two Polys with the same keyfor and keys of equal length, p*q evaluates to value(p)*value(q) for every multiplicative valuation (monomial of a key sum = product of monomials); an int/Fraction times a Poly scales the value; p**n for n>=1 is the n-th power of the value.", "quantifier": "all Polys, all scalars, all n>=1, all multiplicative valuations", "why_tests_cant": "Collisions of key sums and cancellations can happen for arbitrary supports; unit tests cover only particular supports and exponents.", "anchors": ["src/ajdmom/poly.py: Poly.__mul__, Poly.__rmul__, Poly.__pow__"]}
{"id": "C03", "title": "merge is in-place addition", "statement": "p.merge(q) leaves q unchanged and turns p into a Poly whose value is the sum, with no duplicate keys, no zero coefficients, and first-insertion order of the surviving keys of p.", "quantifier": "all pairs of Polys with equal keyfor", "why_tests_cant": "Needs all cancellation patterns; every moment routine is a long chain of merges.", "anchors": ["src/ajdmom/poly.py: Poly.merge, Poly.add_keyval, Poly.remove_zero"]}
{"id": "C04", "title": "keyfor mismatch is always refused", "statement": "+, -, *, merge between Polys whose keyfor differ, and ** with a non-positive exponent, raise NotImplementedError, and never return a mixed Poly; with equal keyfor they never raise it.", "quantifier": "all pairs of Polys and keyfors", "why_tests_cant": "Guard must hold for every pair of attribute lists, not only the tested ones.", "anchors": ["src/ajdmom/poly.py: Poly.__add__, __sub__, __mul__, __pow__, merge"]}
{"id": "C05", "title": "remove_zero drops exactly the zero terms", "statement": "After remove_zero every remaining coefficient is nonzero, every nonzero term and its order is kept, the value is unchanged, and a second call changes nothing.", "quantifier": "all Polys", "why_tests_cant": "Quantifies over all coefficient patterns.", "anchors": ["src/ajdmom/poly.py: Poly.remove_zero"]}
{"id": "C06", "title": "mul_poly multiplies re-indexed keys", "statement": "p.mul_poly(q, keyIndexes, keyfor) has value value(p)*value(q) whenever the new valuation of the combined key factors through the two index maps (index -1 meaning 'absent'); the result carries the requested keyfor and merges colliding keys.", "quantifier": "all Polys, index maps and valuations compatible with them", "why_tests_cant": "The index maps differ in every model; a wrong slot only shows up for some keys.", "anchors": ["src/ajdmom/poly.py: Poly.mul_poly, kv"]}
{"id": "C07", "title": "comb is the multinomial coefficient", "statement": "comb(n, ks) equals n!/(k1!...km!) for every list of non-negative integers summing to n, and the sum of comb(n,ks)*prod x_i^k_i over all such lists is (x1+...+xm)^n.", "quantifier": "all n, all m, all weak compositions, all reals x_i", "why_tests_cant": "Infinite family of index vectors.", "anchors": ["src/ajdmom/utils.py: comb"]}
{"id": "C08", "title": "multilevel_comb/multilevel_index enumerate exactly", "statement": "multilevel_comb(n,m) terminates and yields every way to write m as an ordered sum of n non-negative integers exactly once; multilevel_index(n,m) terminates (m>=1) and yields every index tuple in range(m)^n exactly once.", "quantifier": "all n>=2 and m>=0 (resp. m>=1)", "why_tests_cant": "Hand-written stack machines; termination and completeness for every size cannot be sampled.", "anchors": ["src/ajdmom/utils.py: multilevel_index, multilevel_comb"]}
{"id": "C09", "title": "fZ is the nested jump sum", "statement": "fZ(l,o,p,q,k,s,J) equals the n-fold sum over all index tuples of the documented product with running maxima of the jump times; 1 for no level, 0 for no jumps.", "quantifier": "all level vectors, all jump histories of any length, all real parameters", "why_tests_cant": "Ranges over all jump histories (schedules).", "anchors": ["src/ajdmom/utils.py: fZ, fZ_each_index"]}
{"id": "C10", "title": "simplify_rho preserves the value", "statement": "simplify_rho(poly, i) evaluates to the same number as poly for every rho with |rho|<=1 when every power of sqrt(1-rho^2) is even and non-negative, removes that slot, and raises exactly when some such power is odd.", "quantifier": "all Polys, positions and rho", "why_tests_cant": "Ranges over all polynomials and reals.", "anchors": ["src/ajdmom/utils.py: simplify_rho"]}
{"id": "C11", "title": "Normal moments", "statement": "mnorm(n) evaluates to the n-th moment of N(mu,sigma^2) and cmnorm(n) to the n-th moment of N(0,sigma^2), i.e. the values satisfy the Stein recurrence m_0=1, m_1=mu, m_{n+2}=mu*m_{n+1}+(n+1)*sigma^2*m_n.", "quantifier": "all n>=0, all real mu, sigma", "why_tests_cant": "All orders n.", "anchors": ["src/ajdmom/cpp_mom.py: mnorm", "src/ajdmom/utils.py: cmnorm, dbfactorial"]}
{"id": "C12", "title": "int_et is the definite integral", "statement": "int_et(n,m) evaluates to the Riemann integral over [0,t] of e^{nks}s^m ds; negative m raises ValueError.", "quantifier": "all integers n, all m>=0, all k!=0, all t", "why_tests_cant": "The case split (n=0, m=0, general) and coefficient product must be right for every n and m.", "anchors": ["src/ajdmom/ito_mom.py: c_nmi, int_et"]}
{"id": "C13", "title": "Stationary variance moments", "statement": "moment_v(n) evaluates to the n-th moment of the Gamma law with mean theta and variance theta*sigma_v^2/(2k), i.e. product over i<n of (theta + i*sigma_v^2/(2k)).", "quantifier": "all n>=0, all real theta, sigma_v, k!=0", "why_tests_cant": "All orders.", "anchors": ["src/ajdmom/ito_mom.py: moment_v"]}
{"id": "C14", "title": "Ito moments satisfy the moment equations", "statement": "The polynomials returned by moment_IEII(n3,n4,n5), read as functions of the elapsed time, are 1 for order 0, vanish at elapsed time 0 for order >=1, and their time derivative is the documented right-hand side in terms of the moments of order one and two lower; hence they are the unique solution of that system.", "quantifier": "all n3,n4,n5>=0, all times and real parameters with k!=0", "why_tests_cant": "Unbounded recursion over all orders; tests compare a few orders numerically.", "anchors": ["src/ajdmom/ito_mom.py: int_e_poly, recursive_IEII, moment_IEII"]}
{"id": "C15", "title": "The moment cache never misses", "statement": "moment_IEII(n3,n4,n5) returns a Poly (no KeyError, ValueError or keyfor error) for all non-negative orders even though polynomials of order n-2 are evicted after each round.", "quantifier": "all n3,n4,n5>=0", "why_tests_cant": "The eviction policy is an invariant over an unbounded loop.", "anchors": ["src/ajdmom/ito_mom.py: moment_IEII"]}
{"id": "C16", "title": "Odd powers of the independent integral vanish", "statement": "moment_IEII(n3,n4,n5) with n5 odd has value 0 (every coefficient is zero), and every returned key has power n3 of e^{k(n-1)h}.", "quantifier": "all n3,n4 and odd n5", "why_tests_cant": "Callers rely on it (ve_IEII drops the first slot, simplify_rho rejects odd powers).", "anchors": ["src/ajdmom/ito_mom.py: moment_IEII", "src/ajdmom/mdl_1fsv/cmom.py: ve_IEII"]}
{"id": "C17", "title": "Compound Poisson moments", "statement": "mcpp(n) evaluates to the n-th moment of a compound Poisson sum with normal jumps over time h: the values satisfy m_0=1 and m_{n+1}=lambda*h*sum_k C(n,k)*E[J^{k+1}]*m_{n-k}.", "quantifier": "all n>=0, all real lambda,h,mu,sigma", "why_tests_cant": "Symbolic differentiation of the MGF over nested keys, unbounded order.", "anchors": ["src/ajdmom/cpp_mom.py: dmgf, d1_times_key, dterm, dmgf_cpp, decode, mcpp_original, mcpp"]}
{"id": "C18", "title": "Compound Poisson central moments", "statement": "cmcpp(n) evaluates to sum_i C(n,i)*(-lambda*h*mu)^i*m_{n-i}, in particular 1 for n=0 and 0 for n=1; it is the n-th moment of the centred jump sum.", "quantifier": "all n>=0 and real parameters", "why_tests_cant": "All orders and parameters.", "anchors": ["src/ajdmom/cpp_mom.py: cmcpp"]}
{"id": "C19", "title": "1FSV moments are E[y^l]", "statement": "For every expectation operator under which v is Gamma distributed and the conditional Ito moments solve the moment equations, poly2num(moment_y(l)) is the expectation of the l-th power of the documented return y = mu h - ... .", "quantifier": "all l>=0, all parameters with k!=0, |rho|<=1, all such expectation operators", "why_tests_cant": "Multinomial bookkeeping over five indexes for every l.", "anchors": ["src/ajdmom/mdl_1fsv/mom.py: b_n, moment_comb, sub_v, moment_y, poly2num", "src/ajdmom/mdl_1fsv/cmom.py: ve_IEII"]}
{"id": "C20", "title": "1FSV central moments are E[(y-Ey)^l]", "statement": "poly2num(cmoment_y(l)) is the expectation of (y-E[y])^l for the same expectation operators; order 1 gives 0.", "quantifier": "all l>=0, parameters and expectation operators", "why_tests_cant": "As for C19, plus consistency between two independently coded expansions.", "anchors": ["src/ajdmom/mdl_1fsv/cmom.py: b_n, ve_IEII, moment_comb, sub_v, cmoment_y, poly2num"]}
{"id": "C21", "title": "1FSV covariance", "statement": "moment_yy(l1,l2) is the expectation of y_n^l1*y_{n+1}^l2 and cov_yy(l1,l2) evaluates to moment_yy(l1,l2)-moment_y(l1)*moment_y(l2); cov with a zero order is 0.", "quantifier": "all l1,l2>=0, parameters", "why_tests_cant": "Two-period expansion for every pair of orders.", "anchors": ["src/ajdmom/mdl_1fsv/cov.py: exp_vn, ve_IEII_vn, moment_inner_comb, moment_outer_comb, moment_yy, cov_yy"]}
{"id": "C22", "title": "dpoly is the partial derivative (1FSV, 1FSVJ)", "statement": "For every parameter name accepted, poly2num(dpoly(p,wrt)) is the partial derivative of poly2num(p) with respect to that parameter; an unknown name raises ValueError.", "quantifier": "all Polys of the model's keyfor, all parameter points in the interior of the domain, all names", "why_tests_cant": "Analytic statement over all reals; finite differences only approximate.", "anchors": ["src/ajdmom/mdl_1fsv/mom.py: dpoly, poly2num", "src/ajdmom/mdl_1fsv/cmom.py: dpoly, poly2num", "src/ajdmom/mdl_1fsvj/mom.py: dpoly, poly2num", "src/ajdmom/mdl_1fsvj/cmom.py: dpoly, poly2num"]}
{"id": "C23", "title": "Jump models are binomial convolutions", "statement": "1FSVJ moment_y(l) (cmoment_y(l), moment_yy(l1,l2)) evaluates to the moment of the sum of the independent diffusion return and the compound Poisson jump: sum_i C(l,i)*m_y(i)*mcpp(l-i) and its analogues.", "quantifier": "all orders and parameters", "why_tests_cant": "All orders.", "anchors": ["src/ajdmom/mdl_1fsvj/mom.py: moment_y", "src/ajdmom/mdl_1fsvj/cmom.py: cmoment_y", "src/ajdmom/mdl_1fsvj/cov.py: moment_yy, cov_yy"]}
{"id": "C24", "title": "1FSV conditional central moments", "statement": "cmoments_y_to(l)[n] evaluates, for every 2<=n<=l, to the conditional expectation given v_0 of the n-th power of the centred return expressed by the conditional Ito moments, and simplify(poly, tp) preserves the value for tp = 1, 2, 3.", "quantifier": "all l, n, parameters with k!=0", "why_tests_cant": "Shared mutable cache with eviction; all orders.", "anchors": ["src/ajdmom/mdl_1fsv/cond_cmom.py: int_mIEII, recursive_IEII, simplify, cmoments_y_to, cond_cm"]}
{"id": "C25", "title": "Two-factor int_et is the definite integral", "statement": "itos_mom.int_et(n1,n2,m) evaluates to the integral over [0,t] of e^{(n1 k1+n2 k2)s}s^m ds whenever n1 k1+n2 k2 is nonzero or n1=n2=0.", "quantifier": "all integers n1,n2, all m>=0, all k1,k2 with n1 k1+n2 k2 != 0 (or n1=n2=0)", "why_tests_cant": "All index pairs, in particular those with n1+n2=0.", "anchors": ["src/ajdmom/itos_mom.py: c, int_et"]}
{"id": "C26", "title": "Two-factor recursion follows the documented equation", "statement": "moment_IEI_IEII(n4..n8), read as a function of elapsed time, satisfies the documented recursive equation that sums the contributions of all applicable index pairs.", "quantifier": "all n4..n8>=0, all parameters", "why_tests_cant": "Mixed index vectors of order >=3 hit several branches at once.", "anchors": ["src/ajdmom/itos_mom.py: t_mul_t0, int_mIEI_IEII, coef_poly, recursive_IEI_IEII, moment_IEI_IEII"]}
{"id": "C27", "title": "dpoly is the partial derivative (2FSV, 2FSVJ)", "statement": "poly2num(dpoly(p,wrt)) is the partial derivative of poly2num(p) for each of the two-factor models' parameters, including the product of inverse (n1 k1+n2 k2) powers.", "quantifier": "all Polys of the model's keyfor, all parameter points where the denominators are nonzero", "why_tests_cant": "Analytic statement over reals.", "anchors": ["src/ajdmom/mdl_2fsv/cmom.py: dt0, dpoly, poly2num", "src/ajdmom/mdl_2fsv/mom.py: dpoly, poly2num", "src/ajdmom/mdl_2fsvj/mom.py: dpoly", "src/ajdmom/mdl_2fsvj/cmom.py: dpoly"]}
{"id": "C28", "title": "Two-factor covariance and jump composition", "statement": "2FSV cov_yy evaluates to moment_yy - moment_y*moment_y and the 2FSVJ quantities are the binomial convolutions with the compound Poisson moments.", "quantifier": "all orders and parameters", "why_tests_cant": "All orders.", "anchors": ["src/ajdmom/mdl_2fsv/cov.py: cov_yy", "src/ajdmom/mdl_2fsvj/mom.py: moment_y", "src/ajdmom/mdl_2fsvj/cmom.py: cmoment_y", "src/ajdmom/mdl_2fsvj/cov.py: moment_yy, cov_yy"]}
{"id": "C29", "title": "SRJD jump integral moments", "statement": "srjd.iez_mom.moment_IEZ(n) evaluates to the n-th moment of the exponentially weighted compound Poisson integral with exponential jumps: m_{n+1}=lambda*sum_k C(n,k)*k!-weighted cumulants*m_{n-k}; its self-check never raises. decode raises ValueError when a power of t-s is left over.", "quantifier": "all n>=0 and parameters", "why_tests_cant": "All orders; the ValueError branch must be unreachable.", "anchors": ["src/ajdmom/mdl_srjd/iez_mom.py: moment_EJ, decode, moment_IEZ"]}
{"id": "C30", "title": "SRJD conditional moments solve the moment equations", "statement": "moment_ie_iez(n1,n2) as a function of time satisfies its documented integral recursion and never raises for n1,n2>=0; conditional moments of v and x are the binomial expansions of the documented solution formula.", "quantifier": "all orders and parameters with k!=0", "why_tests_cant": "Unbounded recursion.", "anchors": ["src/ajdmom/mdl_srjd/cond_ie_iez_mom.py: int_e_poly, recursive_ie, moment_ie, recursive_ie_iez, moment_ie_iez", "src/ajdmom/mdl_srjd/cond_mom.py: moment_x, moment_v"]}
{"id": "C31", "title": "SRJD stationary moments", "statement": "mdl_srjd cmoment_v(n)/moment_v(n) are the moments fixed by stationarity (the moment at time t equals the moment at time 0 for all t), and the internal division self-checks never raise.", "quantifier": "all n>=0", "why_tests_cant": "The solver divides polynomials and relies on cancellation for every order.", "anchors": ["src/ajdmom/mdl_srjd/cmom.py: cond_cmoment_v, divide, solve_polynomial, cmoment_v", "src/ajdmom/mdl_srjd/mom.py: expand, moment_v"]}
{"id": "C32", "title": "Integration of jump sums", "statement": "int_et_fZ(n,m,N) evaluates to the integral of e^{nks}s^m from the running maximum of jump times (0 when there is no sum) to t; ito_cond_mom.int_e_poly(coef,tp,m,poly) evaluates to coef*factor*integral_0^t e^{mks} poly(s) ds for any jump history. Keys with missing exponents raise IndexError.", "quantifier": "all integers n, m>=0, all jump histories, all Polys of that keyfor", "why_tests_cant": "Ranges over all jump histories.", "anchors": ["src/ajdmom/ito_cond_mom.py: int_et_fZ, int_e_poly"]}
{"id": "C33", "title": "Integration of IEZ times jump sums", "statement": "int_e_IEZ_poly(coef,m,poly) evaluates to coef*integral_0^t e^{mks} IEZ_s poly(s) ds for every jump history.", "quantifier": "all Polys of that keyfor, all integers m, all jump histories", "why_tests_cant": "The defect only shows for terms with both a nonzero exponential power and a positive time power.", "anchors": ["src/ajdmom/ito_cond_mom.py: int_e_IEZ_poly"]}
{"id": "C34", "title": "SVVJ/SVIJ conditional moments", "statement": "moments conditional on the jump path are binomial/multinomial combinations of the conditional Ito moments; svij quantities are the convolution of svvj quantities with compound Poisson moments; simplify preserves the value.", "quantifier": "all orders, all jump histories", "why_tests_cant": "All orders and histories.", "anchors": ["src/ajdmom/mdl_svvj/cond2_mom.py: moment_comb, moments_y_to", "src/ajdmom/mdl_svvj/cond2_cmom.py: simplify, cmoments_y_to, classify", "src/ajdmom/mdl_svij/cond2_mom.py", "src/ajdmom/mdl_svij/cond2_cmom.py"]}
{"id": "C35", "title": "Order-zero moments are one", "statement": "The 0-th moment, central moment and conditional (central) moment of every model evaluates to 1.", "quantifier": "all models, all parameters", "why_tests_cant": "A normalisation law across all entry points and parameter values.", "anchors": ["src/ajdmom/mdl_1fsv/cond_cmom.py: cond_cm", "src/ajdmom/mdl_svvj/cond2_cmom.py: cmoment_y", "src/ajdmom/mdl_svij/cond2_cmom.py", "src/ajdmom/mdl_svcj/cond2_mom.py: m", "src/ajdmom/mdl_1fsv/mom.py: m"]}
{"id": "C36", "title": "SVCJ joint jump moments", "statement": "moment_ieziziz(n1,n2,n3) evaluates to the joint moment of the compound Poisson integrals (IEZ,IZ,IZ*): it satisfies the joint moment recursion of a marked Poisson sum, has no negative power of (t-s), and never raises for non-negative orders.", "quantifier": "all n1,n2,n3>=0 and parameters", "why_tests_cant": "Symbolic differentiation over nested keys, unbounded order.", "anchors": ["src/ajdmom/mdl_svcj/ieziziz_mom.py: moment_ejjj, d1_times_key, dterm, dmgf_ieziziz, decode, moment_ieziziz"]}
{"id": "C37", "title": "SVCJ conditional joint moments", "statement": "moment_ieii_ieziziz(n1..n6) satisfies its documented recursion, never misses its cache and returns only non-negative powers of t.", "quantifier": "all n1..n6>=0", "why_tests_cant": "Six-fold recursion with shared cache.", "anchors": ["src/ajdmom/mdl_svcj/cond_ieii_ieziziz_mom.py: expand_ieziziz, int_e_s_poly, key_times_poly, recursive_ieii_ieziziz, moment_ieii_ieziziz"]}
{"id": "C38", "title": "SVCJ conditional and unconditional moments of y", "statement": "svcj.cond_mom.moment_y(n) expands the documented return; expand_sqrt never raises on it; mom.moment_y and cmom.cmoment_y are the substitutions by stationary moments; mu drops out of the central moment so remove_mu_column never raises.", "quantifier": "all n>=0", "why_tests_cant": "All orders.", "anchors": ["src/ajdmom/mdl_svcj/cond_mom.py: b_n, enlarge, expand_sqrt, moment_y", "src/ajdmom/mdl_svcj/mom.py", "src/ajdmom/mdl_svcj/cmom.py: cmoment_y, remove_mu_column"]}
{"id": "C39", "title": "write_to_csv and classification guards", "statement": "write_to_csv refuses polynomials whose jump-level keys differ in length; svvj.classify splits a polynomial by jump level so that the sub-polynomials' values add up to the original value.", "quantifier": "all Polys of that keyfor", "why_tests_cant": "All level patterns, including non-contiguous ones.", "anchors": ["src/ajdmom/poly.py: write_to_csv", "src/ajdmom/mdl_svvj/cond2_cmom.py: classify"]}
{"id": "C40", "title": "2FSV moments compose the conditional moments", "statement": "mdl_2fsv moment_y(l), cmoment_y(l), moment_yy(l1,l2) and cov_yy(l1,l2) evaluate to E[y^l], E[(y-E y)^l], E[y_n^l1 y_{n+1}^l2] and the covariance of powers for every stationary pair (v1,v2) whose conditional joint moments of (IE1,I1,IE2,I2,I*) are those returned by moment_IEI_IEII; up to total order 2 these are the moments of the model.", "quantifier": "all orders, all parameters with k1,k2 nonzero, all expectation operators", "why_tests_cant": "All orders and parameters; the eight-fold multinomial expansion and the two substitution passes of cov.py.", "anchors": ["src/ajdmom/mdl_2fsv/mom.py: moment_comb, sub_v, moment_y", "src/ajdmom/mdl_2fsv/cmom.py: cmoment_comb, sub_v, cmoment_y", "src/ajdmom/mdl_2fsv/cov.py: vvee_IEI_IEII_vnvn, moment_inner_comb, moment_outer_comb, moment_yy, cov_yy"]}
{"id": "C41", "title": "Joint moments given the jump path", "statement": "ito_cond_mom.moment_IEII(n1,n2,n3) evaluates, for every jump path, to the joint moment E[IE^n1 I^n2 I*^n3 | v0, jump path] determined by the integral equations that Ito's formula gives; it never raises for non-negative orders and vanishes for odd n3.", "quantifier": "all n1,n2,n3>=0, all jump paths, all parameters with k<>0, all t>=0", "why_tests_cant": "The defect first shows at order 4 with at least one jump; the statement ranges over all orders and jump paths.", "anchors": ["src/ajdmom/ito_cond_mom.py: recursive_IEII, moment_IEII, int_e_poly, int_e_IEZ_poly"]}
{"id": "C42", "title": "Moments of the square-root jump diffusion given the jump path", "statement": "mdl_srjd.cond2_mom.moment_IE(m), moment_v(m) and cond2_cmom.cmoment_v(m) evaluate, for every jump path, to E[IE^m | v0, z], E[v^m | v0, z] and E[(v - E v)^m | v0, z] of the model; fZ is the nested sum over all tuples of jumps and poly2num the value of the poly; negative orders raise KeyError (moment_IE, cmoment_v) or give the empty Poly (moment_v).", "quantifier": "all orders m>=0 (and all m<0), all jump paths with positive times, all parameters with k<>0, all t>=0", "why_tests_cant": "The nesting depth of the jump sums grows with the order and the number of jumps is unbounded; the statement ranges over all orders, paths and parameters.", "anchors": ["src/ajdmom/mdl_srjd/cond2_mom.py: int_e_poly, int_e_IEZ_IE, coef_poly, recursive_IE, moment_IE, moment_v, fZ, poly2num", "src/ajdmom/mdl_srjd/cond2_cmom.py: cmoment_v"]}
{"id": "C43", "title": "SVVJ/SVIJ return moments given the jump path", "statement": "mdl_svvj and mdl_svij cond2_cmom.cmoments_y_to and cond2_mom.moments_y_to evaluate, for every jump path of the variance, to the true (central) moments E[(y - E y)^n | v0, jump path] and E[y^n | v0, jump path] of the return of the model.", "quantifier": "all orders, all jump paths with positive times, all parameters with k<>0, all h>=0", "why_tests_cant": "The defect first shows at order 4 with at least one jump; the statement ranges over all orders, paths and parameters.", "anchors": ["src/ajdmom/mdl_svvj/cond2_cmom.py: cmoments_y_to", "src/ajdmom/mdl_svvj/cond2_mom.py: moments_y_to", "src/ajdmom/mdl_svij/cond2_cmom.py: cmoments_y_to", "src/ajdmom/mdl_svij/cond2_mom.py: moments_y_to", "src/ajdmom/ito_cond_mom.py: int_e_IEZ_poly"]}
{"id": "C44", "title": "SVCJ return moments given the variance jumps compose normal price jumps", "statement": "mdl_svcj cond2_mom.moments_y_to/moment_y/m and cond2_cmom.cmoments_y_to/cmoment_y/cm evaluate, for every number of variance jumps J_1..J_n, to E[y^l] and E[(y-E y)^l] where y is the return without price jumps plus independent X_i ~ N(mu_s + rho_J J_i, sigma_s^2); moment_IZs and cmoment_IZs are the (central) moments of the sum of the X_i; poly2num gives the value of the poly.", "quantifier": "all orders, all numbers of jumps and jump paths, all parameters with k<>0, all expectation operators giving IE, I, I* the moments of moment_IEII", "why_tests_cant": "The number of jumps is unbounded and selects between four code paths, one of them an explicit-stack loop; all orders and parameters.", "anchors": ["src/ajdmom/mdl_svcj/cond2_mom.py: mnorm_cond, comb_poly, moment_IZs, moments_y_to, moment_y, poly2num, m", "src/ajdmom/mdl_svcj/cond2_cmom.py: cmoment_IZs, cmoments_y_to, cmoment_y, poly2num, cm"]}
{"id": "C45", "title": "SVCJ return moments given the variance jumps are the true ones", "statement": "mdl_svcj cond2_mom.moments_y_to and cond2_cmom.cmoments_y_to evaluate to the true (central) moments of the return given v0 and the jump path of the variance, at every order including 0.", "quantifier": "all orders, all jump paths with positive times, all parameters with k<>0, all h>=0", "why_tests_cant": "The inherited defect first shows at order 4 with at least one jump; order 0 fails only in poly2num.", "anchors": ["src/ajdmom/mdl_svcj/cond2_mom.py: moments_y_to, m", "src/ajdmom/mdl_svcj/cond2_cmom.py: cmoments_y_to, cmoment_y", "src/ajdmom/ito_cond_mom.py: int_e_IEZ_poly"]}
{"id": "C46", "title": "The scalar derivative functions return the true partial derivatives", "statement": "dm, dcm and dcov of mdl_1fsv, mdl_1fsvj, mdl_2fsv and mdl_2fsvj return the partial derivative of the scalar functions m, cm and cov at the parameter point, with respect to every accepted parameter name, and raise ValueError for any other name. In the one-factor models m, cm and cov return the true moments and covariances of the return, so dm, dcm and dcov are the derivatives of these as functions of the parameters.", "quantifier": "all orders l, l1, l2 >= 0, all names, all parameter points with k<>0 and -1<rho<1 (one factor) or no vanishing denominator n1 k1 + n2 k2 (two factors)", "why_tests_cant": "Finite differences only approximate a derivative at sampled points and low orders; here it is exact at all points and orders.", "anchors": ["src/ajdmom/mdl_1fsv/mom.py: m, dm", "src/ajdmom/mdl_1fsv/cmom.py: cm, dcm", "src/ajdmom/mdl_1fsv/cov.py: cov, dcov", "src/ajdmom/mdl_1fsvj/mom.py, cmom.py, cov.py", "src/ajdmom/mdl_2fsv/mom.py, cmom.py, cov.py", "src/ajdmom/mdl_2fsvj/mom.py, cmom.py, cov.py"]}
{"id": "C47", "title": "The scalar moment functions of mdl_srjd and mdl_svcj return the true moments", "statement": "Called with a dict that holds the parameter values, m, cm, m_x, cm_x, m_ie, m_ie_iez, cm_ie_iez of mdl_srjd and m_ieziziz, m_ieii_ieziziz, m_y, unm_y, cm_y of mdl_svcj return the true (central) moment of the named quantity; they raise KeyError when any parameter they need is missing and ValueError for negative orders; iez_cmom.cm also returns the central moment of IEZ.", "quantifier": "all orders >= 0, all dicts, all parameters with k<>0, h>=0, rho^2<=1", "why_tests_cant": "A wrong slot, sign or symbol in poly2num shows only at orders and parameter values where that exponent is nonzero and the value is not 0 or 1.", "anchors": ["src/ajdmom/mdl_srjd/iez_mom.py: poly2num, m", "src/ajdmom/mdl_srjd/iez_cmom.py: cm", "src/ajdmom/mdl_srjd/cond_mom.py: poly2num, m_x, m", "src/ajdmom/mdl_srjd/cond_cmom.py: cm_x, cm", "src/ajdmom/mdl_srjd/cond_ie_iez_mom.py: poly2num, m_ie, m_ie_iez", "src/ajdmom/mdl_srjd/cond_ie_iez_cmom.py: poly2num, m_ie, cm_ie_iez", "src/ajdmom/mdl_srjd/cond2_mom.py: m", "src/ajdmom/mdl_srjd/cond2_cmom.py: cm", "src/ajdmom/mdl_svcj/ieziziz_mom.py: poly2num", "src/ajdmom/mdl_svcj/cond_ieii_ieziziz_mom.py: poly2num", "src/ajdmom/mdl_svcj/cond_mom.py: poly2num, m_y", "src/ajdmom/mdl_svcj/cond_cmom.py: cm_y", "src/ajdmom/mdl_svcj/mom.py: poly2num, unm_y", "src/ajdmom/mdl_svcj/cmom.py: cm_y"]}
{"id": "C48", "title": "The factor-model simulators are truncated Euler schemes with the right conditional mean and variance", "statement": "r1FSV, r1FSV_iid, r1FSVJ, r2FSV and r2FSVJ return, as row i, the Euler return mu h - IV/2 + noise over n_segment steps of one truncated square-root path that continues from row to row (that restarts at v0 with fresh draws in r1FSV_iid), each random draw used once; the variances never become negative. When the normal draws have mean 0 and variance 1 given the earlier ones, a row has mean mu h - E[IV]/2 and E[(y - (mu h - IV/2))^2] = E[IV]. The truncation only adds variance. Without noise the variance path and its integral converge to the solution of v' = k(theta - v). Bad arguments raise ZeroDivisionError or ValueError.", "quantifier": "all sequences of random draws, all N >= 0, n_segment > 0, h >= 0, v0 >= 0, all parameters with rho^2 <= 1", "why_tests_cant": "The outputs are random; a wrong correlation, a draw used twice or a missing restart changes only the joint law, which a test sees through sampling noise.", "anchors": ["src/ajdmom/mdl_1fsv/euler.py: r1FSV, r1FSV_iid", "src/ajdmom/mdl_1fsvj/euler.py: r1FSVJ", "src/ajdmom/mdl_2fsv/euler.py: r2FSV", "src/ajdmom/mdl_2fsvj/euler.py: r2FSVJ"]}
{"id": "C49", "title": "The simulators given the variance jumps have exactly the closed-form conditional mean", "statement": "Given jumps in time order, rSVVJ returns as row i the SVVJ return with the stochastic integrals IE, I, I* taken along a truncated Euler scheme whose grid is the multiples of T/n_segment together with the jump times up to T, each row with its own draws; rSVIJ adds a Poisson number of N(mu_s, sigma_s^2) variables, rSVCJ one N(mu_s + rho_J J, sigma_s^2) variable per variance jump. When the normal draws have mean 0 and variance 1 given the earlier ones, for every n_segment the mean of a row is exactly the mean of the model, which is what m(1, par) of mdl_svvj (mdl_svcj) cond2_mom returns, and the variance is that of the weighted integrals along the scheme (plus numJ sigma_s^2). Jump times out of order, k = 0, a negative n or too few jump times raise the documented exceptions.", "quantifier": "all sequences of random draws, all numbers of jumps, all n >= 0, n_segment > 0, T > 0, v0 >= 0, k <> 0, rho^2 <= 1", "why_tests_cant": "The outputs are random and the segment-splitting at jumps has many cases (several jumps in one segment, jumps on grid points, after T); a wrong split changes the law slightly, below sampling noise.", "anchors": ["src/ajdmom/mdl_svvj/euler.py: IZ, IEZ, incIEII, rIEII, rSVVJ", "src/ajdmom/mdl_svij/euler.py: rSVIJ", "src/ajdmom/mdl_svcj/euler.py: rSVCJ", "src/ajdmom/mdl_svvj/cond2_mom.py: m", "src/ajdmom/mdl_svcj/cond2_mom.py: m"]}
{"id": "C50", "title": "rSRJD samples the variance exactly: every moment of every row is the closed-form conditional moment", "statement": "Let the generator rng.noncentral_chisquare(d, lambda) have, given the earlier draws, the moments (derivatives at 0 of the moment generating function (1-2s)^{-d/2} exp(lambda s/(1-2s))) up to order L. For k <> 0, k theta > 0, sigma <> 0, v0 >= 0, T > 0 and any number of jumps at strictly increasing times in (0, T] with sizes >= 0, rSRJD returns n rows, and for every order up to L, given the earlier rows, a row has the moment of v_T given v_0 and the jumps, where the moments of the stochastic integral solve the Ito system of the model. Hence moment_v/cmoment_v of mdl_srjd cond2_mom evaluated by poly2num are exactly the raw and central moments of every row, with no discretisation error. sigma = 0, k = 0, a zero time step (two jumps at one time, a jump at time 0) raise ZeroDivisionError; k theta <= 0, v0 < 0 and n < 0 raise ValueError.", "quantifier": "all expectation operators and draws with the stated law, all moment orders, all numbers of jumps and rows, all real parameters in the stated range (k < 0 included)", "why_tests_cant": "Exactness at every order is a statement about a law; sampling shows it only up to Monte Carlo error, and a wrong degrees-of-freedom or noncentrality constant in a rare region is invisible.", "anchors": ["src/ajdmom/mdl_srjd/euler.py: rSRD, rSRJD", "src/ajdmom/mdl_srjd/cond2_mom.py: m, cm"]}
{"id": "C51", "title": "The simulators given the variance jumps leave out the jumps after the horizon", "statement": "Given jumps in time order, the result of each of rSVVJ, rSVIJ, rSVCJ and rSRJD is the same as with only the jumps up to T.", "quantifier": "all sequences of random draws, all jump lists, all horizons T > 0", "why_tests_cant": "Callers usually pass jumps up to T only; the behaviour beyond T differs between the four simulators without any error being raised.", "anchors": ["src/ajdmom/mdl_svvj/euler.py: rSVVJ", "src/ajdmom/mdl_svij/euler.py: rSVIJ", "src/ajdmom/mdl_svcj/euler.py: rSVCJ", "src/ajdmom/mdl_srjd/euler.py: rSRJD"]}
{"id": "C52", "title": "Third moments of the two-factor models", "statement": "moment_y(3) and cmoment_y(3) of mdl_2fsv are the third moment and the third central moment of the return of the two-factor SV model; with independent compound Poisson jumps the same holds for cmoment_y(3) of mdl_2fsvj.", "quantifier": "all parameters k1, k2, h, mu, theta1, sigma_v1, theta2, sigma_v2 (and jump parameters), all laws with the conditional moments of the model", "why_tests_cant": "The returned skewness is close to the true one for small volatility of volatility (the difference is of order sigma^4), so a comparison with simulated moments does not show a systematic error.", "anchors": ["src/ajdmom/mdl_2fsv/mom.py: moment_y", "src/ajdmom/mdl_2fsv/cmom.py: cmoment_y", "src/ajdmom/mdl_2fsvj/cmom.py: cmoment_y", "src/ajdmom/itos_mom.py: recursive_IEI_IEII"]}
{"id": "C53", "title": "The files written determine the polynomial", "statement": "The text written by Poly.write_to_txt determines the keyfor names and the items in the order of the dict, for keys with tuples nested in any way. The lines written by the first branch of Poly.write_to_csv determine the items, and every row has as many columns as the header. write_to_subpolys writes one file for each level of summation, named by order and level, and the files together determine the terms of the polynomial.", "quantifier": "all names without a quote, all nested keys, all rational values, all polys (for write_to_subpolys: nonempty, without a missing level)", "why_tests_cant": "Injectivity is a statement about all pairs of polynomials; a sample of round trips does not exclude two different keys with one text.", "anchors": ["src/ajdmom/poly.py: write_to_txt", "src/ajdmom/poly.py: write_to_csv", "src/ajdmom/mdl_svvj/cond2_cmom.py: write_to_subpolys"]}
{"id": "C54", "title": "What the scalar functions do with any parameter dict", "statement": "m, cm, cov and their derivatives dm, dcm, dcov for the one- and two-factor models, with and without jumps, and cond_cm of the one-factor model, raise KeyError exactly when a name they read is missing, raise ZeroDivisionError exactly when all names are present and a monomial of the polynomial has a negative power of zero (k = 0, or a vanishing n1 k1 + n2 k2), and otherwise return the value of the polynomial. The derivatives raise ValueError for a direction they do not know, whatever the dict.", "quantifier": "all dicts, all orders l, l1, l2 >= 0, all directions; values with |rho| <= 1 (every rho: C58), for cond_cm h <> 0", "why_tests_cant": "Which orders still work at k = 0 depends on the derived polynomial; a test covers one order and one dict.", "anchors": ["src/ajdmom/mdl_1fsv/mom.py: poly2num, m, dm", "src/ajdmom/mdl_1fsvj/mom.py: poly2num", "src/ajdmom/mdl_2fsv/mom.py: poly2num, m, dm", "src/ajdmom/mdl_2fsvj/mom.py: poly2num", "src/ajdmom/mdl_1fsv/cond_cmom.py: cond_cm"]}
{"id": "C55", "title": "The results do not depend on the unit of time", "statement": "Measuring time in another unit multiplies h by c and divides the rates (k, mu, theta, sigma_v, lambda, and k1, k2, theta1, ...) by c. m, cm and cov of the one- and two-factor models, with and without jumps, are unchanged; dm, dcm, dcov with respect to a rate are multiplied by c, with respect to any other parameter unchanged; errors are the same. The moments of the stochastic integrals have no dimension: in every key the powers of time and 1/k add up to those of v, theta and sigma_v.", "quantifier": "all c <> 0, all parameters (also where the formulas divide by zero), all orders l, l1, l2 (also negative), all directions", "why_tests_cant": "Every monomial of every order must have the same dimension; one misplaced exponent in one term of a high order shows only there. For the two-factor models, whose moments of order three and more are wrong (C52), no reference values exist.", "anchors": ["src/ajdmom/ito_mom.py: recursive_IEII", "src/ajdmom/itos_mom.py: recursive_IEI_IEII, t_mul_t0", "src/ajdmom/mdl_1fsv/{mom,cmom,cov}.py", "src/ajdmom/mdl_1fsvj/{mom,cmom,cov}.py", "src/ajdmom/mdl_2fsv/{mom,cmom,cov}.py", "src/ajdmom/mdl_2fsvj/{mom,cmom,cov}.py"]}
{"id": "C56", "title": "The signs of the volatilities do not matter", "statement": "Replacing a Brownian motion by its negative does not change its law. So m, cm and cov of mdl_1fsv and mdl_1fsvj are unchanged when sigma_v and rho change their signs together, those of mdl_2fsv and mdl_2fsvj when sigma_v1 or sigma_v2 changes its sign, and those of mdl_1fsvj and mdl_2fsvj when sigma_j changes its sign. The derivatives with respect to a parameter whose sign changes change their sign, all others are unchanged, and errors are the same.", "quantifier": "all parameters, all orders l, l1, l2 (also negative), all directions", "why_tests_cant": "sigma and rho enter with odd powers in many terms of every order; that each of them pairs an odd power of sigma_v with an odd power of rho is a parity invariant of the whole recursion.", "anchors": ["src/ajdmom/ito_mom.py: recursive_IEII, int_e_poly", "src/ajdmom/itos_mom.py: recursive_IEI_IEII, coef_poly", "src/ajdmom/cpp_mom.py: mcpp, cmcpp", "src/ajdmom/mdl_1fsv/{mom,cmom,cov}.py", "src/ajdmom/mdl_1fsvj/{mom,cmom,cov}.py", "src/ajdmom/mdl_2fsv/{mom,cmom,cov}.py", "src/ajdmom/mdl_2fsvj/{mom,cmom,cov}.py"]}
{"id": "C57", "title": "sqrt(1-rho^2) occurs with even powers only", "statement": "The joint moments of the stochastic integrals with an odd power of the integral of the independent Brownian motion are zero (moment_IEII with odd n5; moment_IEI_IEII with odd n8 is the empty polynomial). Hence in every key with a nonzero coefficient of moment_y, cmoment_y, moment_yy, cov_yy of mdl_1fsv and mdl_1fsvj the power of sqrt(1-rho^2) is even, and for -1 <= rho <= 1 the values are sums with integer powers of 1-rho^2.", "quantifier": "all orders; all parameters with -1 <= rho <= 1 for the values", "why_tests_cant": "The power (1-rho**2)**(n/2) is computed with a float exponent; that it never is a half-integer, for no order, is an invariant of the recursion. A wrong parity in one high-order term would make the result complex for |rho| > 1 only.", "anchors": ["src/ajdmom/ito_mom.py: recursive_IEII, moment_IEII", "src/ajdmom/itos_mom.py: recursive_IEI_IEII, moment_IEI_IEII", "src/ajdmom/mdl_1fsv/{mom,cmom,cov}.py: b_n, moment_comb, poly2num", "src/ajdmom/mdl_1fsvj/{mom,cmom,cov}.py"]}
{"id": "C58", "title": "The one-factor functions at every rho", "statement": "For mdl_1fsv and mdl_1fsvj, whatever real number rho is (also |rho| >= 1), m, cm, cov and dm, dcm, dcov never produce a complex number from (1 - rho**2) ** (n/2): they raise KeyError exactly when a name is missing, ZeroDivisionError exactly when k = 0 and a monomial has a negative power of k, and otherwise return the real number sum of coefficient times powers, with the integer power n/2 of 1 - rho**2. For k <> 0, dm, dcm, dcov return the derivative of m, cm, cov in the given direction, at every rho, also at rho = 1 and rho = -1.", "quantifier": "all dicts with real values, all orders, all directions", "why_tests_cant": "A half-integer power, or a negative power of 1 - rho**2 in a derivative, in one high-order term only shows for |rho| >= 1 and only at that order.", "anchors": ["src/ajdmom/mdl_1fsv/mom.py: poly2num, dpoly, m, dm", "src/ajdmom/mdl_1fsv/cmom.py: poly2num, dpoly", "src/ajdmom/mdl_1fsv/cov.py", "src/ajdmom/mdl_1fsvj/{mom,cmom,cov}.py: poly2num, dpoly"]}
{"id": "C59", "title": "Scalar functions given the jumps, for every dict", "statement": "m(l, par) and cm(l, par) of the cond2 modules of mdl_svvj, mdl_svij, mdl_svcj and mdl_srjd raise KeyError when one of the names they read (also jumptime, jumpsize) is missing from par; raise IndexError when there are fewer jump times than jump sizes and some monomial has a sum over the jumps; raise ZeroDivisionError when k = 0 makes a factor undefined; and otherwise return the sum of coefficient times powers times the nested sum over all tuples of jumps, at every real rho. The exception is m(0, par) of mdl_svcj, which raises IndexError. For a complete dict with |rho| <= 1 and no jump after h the result is the moment given the jumps (of the model: up to order 3 for the returns, every order for the variance).", "quantifier": "all dicts with real values, all orders (l >= 0 for mdl_srjd), all jump sequences", "why_tests_cant": "utils.fZ runs a recursion whose depth is the number of levels of the key and whose width is the number of jumps; orders, jump counts, dict contents and values are unbounded and which exception wins depends on their combination.", "anchors": ["src/ajdmom/utils.py: fZ", "src/ajdmom/mdl_svvj/{cond2_mom,cond2_cmom}.py: poly2num, m, cm", "src/ajdmom/mdl_svij/{cond2_mom,cond2_cmom}.py: poly2num, m, cm", "src/ajdmom/mdl_svcj/{cond2_mom,cond2_cmom}.py: poly2num, m, cm", "src/ajdmom/mdl_srjd/{cond2_mom,cond2_cmom}.py: fZ, poly2num, m, cm"]}
{"id": "C60", "title": "A model whose jumps vanish is the model without jumps", "statement": "When the jump rate is 0, or all jump sizes are 0: m, cm, cov of mdl_1fsvj equal those of mdl_1fsv (k <> 0, h >= 0) and m, cm, cov of mdl_2fsvj those of mdl_2fsv (all parameters with nonzero denominators); m, cm of mdl_svij given the jumps of the variance equal those of mdl_svvj, and those of mdl_svcj given the jumps equal those of mdl_svvj when the price jumps are 0 or no jump is given (order >= 1); the stationary moments of mdl_srjd equal moment_v of ito_mom.py; and mdl_svcj with rate 0 returns the moments, central moments and conditional central moments (order >= 1) of mdl_1fsv.", "quantifier": "all orders, all remaining parameters", "why_tests_cant": "Each pair of models is computed by unrelated recursions (different keys, tables and integration routines). Agreement at every order and parameter cannot be sampled.", "anchors": ["src/ajdmom/mdl_1fsv/{mom,cmom,cov,cond_cmom}.py", "src/ajdmom/mdl_1fsvj/{mom,cmom,cov}.py", "src/ajdmom/mdl_2fsv/{mom,cmom,cov}.py", "src/ajdmom/mdl_2fsvj/{mom,cmom,cov}.py", "src/ajdmom/mdl_svvj/{cond2_mom,cond2_cmom}.py", "src/ajdmom/mdl_svij/{cond2_mom,cond2_cmom}.py", "src/ajdmom/mdl_svcj/{cond2_mom,cond2_cmom,mom,cmom,cond_mom}.py", "src/ajdmom/mdl_srjd/{mom,cmom}.py"]}
{"id": "C61", "title": "Central moments are the binomial transform of the raw moments", "statement": "In every model cm(l, par) = sum_i C(l,i) m(i, par) (-m(1, par))^(l-i) with m(0) = 1, for every order l >= 1: the returns of mdl_1fsv, mdl_1fsvj, mdl_2fsv, mdl_2fsvj, the returns given the jumps of mdl_svvj, mdl_svij, mdl_svcj, the conditional and stationary returns of mdl_svcj, and the conditional, stationary and given-the-jumps variance of mdl_srjd. In particular cm(1) = 0 and cm(2) = m(2) - m(1)^2.", "quantifier": "all orders l >= 1, all parameters with nonzero mean reversion, h >= 0 and |rho| <= 1 where the model has a rho; all jump sequences up to h", "why_tests_cant": "mom.py and cmom.py of a model run different recursions over different keys (cmom.py expands the centred variable). Agreement at every order and all real parameters cannot be sampled.", "anchors": ["src/ajdmom/mdl_1fsv/{mom,cmom,cov}.py", "src/ajdmom/mdl_1fsvj/{mom,cmom,cov}.py", "src/ajdmom/mdl_2fsv/{mom,cmom,cov}.py", "src/ajdmom/mdl_2fsvj/{mom,cmom,cov}.py", "src/ajdmom/mdl_svvj/{cond2_mom,cond2_cmom}.py", "src/ajdmom/mdl_svij/{cond2_mom,cond2_cmom}.py", "src/ajdmom/mdl_svcj/{cond2_mom,cond2_cmom,cond_mom,cond_cmom,mom,cmom}.py", "src/ajdmom/mdl_srjd/{cond2_mom,cond2_cmom,cond_mom,cond_cmom,mom,cmom}.py"]}
{"id": "C62", "title": "The drift moves the return and nothing else", "statement": "Adding d to mu changes m(l) into sum_i C(l,i) m(i) (d h)^(l-i) and leaves cm(l) unchanged, in every model with a return. For the factor models cov(l1,l2) becomes sum_{i,j} C(l1,i) C(l2,j) cov(i,j) (d h)^(l1+l2-i-j), and cov(1,1) is unchanged. The derivative dm(l) with respect to mu is l h m(l-1), that of cm(l) is 0, and for the one-factor models that of cov(1,1) is 0.", "quantifier": "all orders l >= 1, all real d, all parameters with nonzero mean reversion, h >= 0 and |rho| <= 1 (derivatives: |rho| < 1; two-factor derivatives: the denominators of the polynomial are defined)", "why_tests_cant": "mu enters the recursions of mom.py as one symbol among many and is dropped by the recursions of cmom.py; that the two treatments fit together at every order is a statement about unbounded recursions and all real values.", "anchors": ["src/ajdmom/mdl_1fsv/{mom,cmom,cov}.py", "src/ajdmom/mdl_1fsvj/{mom,cmom,cov}.py", "src/ajdmom/mdl_2fsv/{mom,cmom,cov}.py", "src/ajdmom/mdl_2fsvj/{mom,cmom,cov}.py", "src/ajdmom/mdl_svvj/{cond2_mom,cond2_cmom}.py", "src/ajdmom/mdl_svij/{cond2_mom,cond2_cmom}.py", "src/ajdmom/mdl_svcj/{cond2_mom,cond2_cmom,cond_mom,cond_cmom,mom,cmom}.py"]}
{"id": "C63", "title": "Rejected arguments", "statement": "comb(n, ns) succeeds exactly when every factor math.comb has two non-negative arguments and raises ValueError otherwise; moment_EJ(n) raises ValueError exactly for n < 0; list.index returns the first position and raises ValueError when there is none. r1FSVJ and r2FSVJ raise ValueError for a negative jump rate, and for a negative sigma_j as soon as the first row has a jump; rSVIJ raises ValueError for a negative jump rate or a negative sigma_s whenever rSVVJ succeeds. rIEII and rSVVJ raise IndexError when a jump time up to T has no jump size. The polynomials of ve_IEII_vn carry the documented names.", "quantifier": "all integers and lists, all parameters, all outcomes of the random generators, any number of rows, segments and jumps", "why_tests_cant": "The exception depends on where in the computation the bad argument is reached, which depends on the random draws and on the position of the jump times among the segments.", "anchors": ["src/ajdmom/utils.py:10-22", "src/ajdmom/mdl_srjd/iez_mom.py:10-29", "src/ajdmom/mdl_svcj/cond_mom.py:40-49", "src/ajdmom/mdl_1fsvj/euler.py", "src/ajdmom/mdl_2fsvj/euler.py", "src/ajdmom/mdl_svvj/euler.py:52-124", "src/ajdmom/mdl_svij/euler.py:15-44", "src/ajdmom/mdl_1fsv/cov.py:37-64"]}
{"id": "C64", "title": "Mean, variance and autocovariance in closed form; positive variances", "statement": "With beta = (1 - e^{-kh})/k: the mean of mdl_1fsv is (mu - theta/2) h, its variance cm(2) is theta (h + (h - beta)(sigma^2/(4k^2) - rho sigma/k)), and cov(1,1) is theta beta^2 (sigma^2/(8k) - rho sigma/2). The jumps of mdl_1fsvj and mdl_2fsvj add lambda h mu_j to the mean, lambda h (mu_j^2 + sigma_j^2) to the variance and nothing to cov(1,1); the two factors of mdl_2fsv add up, with rho = 0. The mean and variance of the variance of mdl_srjd, given v_0 and stationary, and of the return of mdl_svcj are the textbook formulas. The variance returned is positive for all admissible parameters.", "quantifier": "all parameters with nonzero mean reversion and |rho| <= 1; positivity: k, theta, h > 0, lambda >= 0 (and v_0 >= 0, sigma <> 0 for the conditional variance of mdl_srjd)", "why_tests_cant": "The identities hold for all real parameters; numerical comparison samples finitely many and cannot show that the variance never becomes negative.", "anchors": ["src/ajdmom/mdl_1fsv/{mom,cmom,cov}.py", "src/ajdmom/mdl_1fsvj/{mom,cmom,cov}.py", "src/ajdmom/mdl_2fsv/{mom,cmom,cov}.py", "src/ajdmom/mdl_2fsvj/{mom,cmom,cov}.py", "src/ajdmom/mdl_srjd/{mom,cmom,cond_mom,cond_cmom}.py", "src/ajdmom/mdl_svcj/{mom,cmom}.py"]}
{"id": "C65", "title": "Variance given the initial variance, or given the jumps; law of total variance", "statement": "cond_cm(2) of mdl_1fsv and cond_cmom.cm_y(2) of mdl_svcj equal what the Ito isometry gives: the integral over [0,h] of E[v_s|v0] times ((rho - sigma w_s)^2 + 1 - rho^2), w_s = (1-e^{-k(h-s)})/2k, plus for SVCJ lambda times the integral of E(X - w_s J)^2; SVCJ's conditional mean is mu h minus half the integrated mean variance plus lambda h E X. Given the jump path z (mdl_svvj, mdl_svij, mdl_svcj cond2_*), cm(2) is the same integral with E[v_s|v0,z], plus lambda_s h (mu_s^2 + sigma_s^2) (SVIJ) or n sigma_s^2 (SVCJ, n jumps), and m(1) of SVVJ and SVCJ is the mean given z, for SVCJ plus sum_i (mu_s + rho_J J_i). The unconditional variance equals the one at v0 = long-run mean plus (b/2)^2 Var(v_0), b = (1-e^{-kh})/k. The conditional variances are positive for k, h, theta > 0, v0, lambda, mu_v >= 0 (jump sizes >= 0), |rho| < 1.", "quantifier": "for all real parameters with k nonzero (formulas) and all jump paths with times in (0, h]; for all parameters in the stated ranges (positivity)", "why_tests_cant": "An identity between generated polynomials and integrals for all real parameters; tests compare finitely many numbers and cannot show that the variance never becomes negative.", "anchors": ["src/ajdmom/mdl_1fsv/cond_cmom.py:317-330", "src/ajdmom/mdl_1fsv/cmom.py", "src/ajdmom/mdl_svcj/cond_mom.py", "src/ajdmom/mdl_svcj/cond_cmom.py", "src/ajdmom/mdl_svcj/cmom.py", "src/ajdmom/mdl_svvj/cond2_{mom,cmom}.py", "src/ajdmom/mdl_svij/cond2_cmom.py", "src/ajdmom/mdl_svcj/cond2_{mom,cmom}.py"]}
{"id": "C66", "title": "Attribute names of the intermediate polynomials", "statement": "Whenever a helper of mdl_1fsv, mdl_2fsv, mdl_srjd, mdl_svcj or ito_cond_mom (b_n, ve_IEII, moment_comb, exp_vn, moment_inner_comb, moment_outer_comb, vvee_IEI_IEII, vvee_IEI_IEII_vnvn, moment_EJ, key_times_poly, last_expectation, enlarge, expand_sqrt, moment_v_theta, recursive_IEII, int_et_fZ, moment_IEII, ...) returns, the keyfor of its result is the documented list of names.", "quantifier": "for all arguments for which the helper returns", "why_tests_cant": "Names of intermediate results do not influence the numbers, so numeric tests do not see a wrong name; the order and arguments are unbounded.", "anchors": ["src/ajdmom/mdl_1fsv/{mom,cmom,cov,cond_cmom}.py", "src/ajdmom/mdl_2fsv/{mom,cmom,cov}.py", "src/ajdmom/mdl_srjd/{iez_mom,cmom}.py", "src/ajdmom/mdl_svcj/{cond_mom,cond_cmom,mom,cmom,cond_ieii_ieziziz_mom}.py", "src/ajdmom/ito_cond_mom.py"]}
{"id": "C67", "title": "Boundary cases of the one-factor models", "statement": "The scalar functions m, cm and cov of mdl_1fsv return the exact values where the model degenerates: over an interval of length h = 0 every moment and central moment of order l >= 1 and every covariance is 0; with theta = 0 the l-th moment is (mu h)^l, central moments of order l >= 1 and covariances are 0; with sigma_v = 0 and rho^2 <= 1 the return is normal: the l-th moment is the l-th derivative at 0 of the moment generating function of N((mu - theta/2) h, theta h), the l-th central moment that of N(0, theta h), and all covariances of consecutive returns are 0. With sigma_v = 0 the functions of mdl_1fsvj return the moments of the jump diffusion with normal jumps: derivatives at 0 of the product of that normal moment generating function and the one of the compound Poisson sum with intensity lambda h and N(mu_j, sigma_j^2) jumps (centred: normal part with mean - lambda h mu_j), and covariances 0. mdl_1fsvj with h = 0 gives 0 as well; with theta = 0 its moments are those of mu h plus the compound Poisson sum, and covariances are 0.", "quantifier": "for all orders l, l1, l2 >= 0 and all real parameters with k nonzero and h >= 0 on the stated boundary (rho arbitrary in the first two cases)", "why_tests_cant": "Orders and parameters are unbounded, and the equality is exact: every term of the generated polynomial that does not contain the vanishing parameter has to combine to the moment of the limiting law.", "anchors": ["src/ajdmom/mdl_1fsv/mom.py", "src/ajdmom/mdl_1fsv/cmom.py", "src/ajdmom/mdl_1fsv/cov.py", "src/ajdmom/mdl_1fsvj/{mom,cmom,cov}.py"]}
{"id": "C68", "title": "Lowest orders of the one-factor models", "statement": "For mdl_1fsv and mdl_1fsvj: m(0) = 1, cm(0) = 1, cm(1) = 0, and cov(0, l) = cov(l, 0) = 0 for every l.", "quantifier": "for all l >= 0 and all real parameters with k nonzero and h >= 0", "why_tests_cant": "The covariance with order 0 runs the whole pipeline of order l and must cancel exactly for every l and every parameter value.", "anchors": ["src/ajdmom/mdl_1fsv/{mom,cmom,cov}.py", "src/ajdmom/mdl_1fsvj/{mom,cmom,cov}.py"]}
