(** The variable names that the returned polynomials must carry, position by position, next to
    the values used for them in Spec/Fsv1.v ([fvals], [cvals]), Spec/Cond1.v and Spec/Params.v. *)
From Coq Require Export List String.
Export ListNotations.
Local Open Scope string_scope.

Definition nm_cond1 : list string :=
  ["e^{kt}"; "t"; "k^{-}"; "v_0-theta"; "theta"; "sigma"; "sigma/2k"; "rho-sigma/2k"; "sqrt(1-rho^2)"].
Definition nm_m1 : list string :=
  ["e^{-kh}"; "h"; "k^{-}"; "mu"; "theta"; "sigma_v"; "rho"; "sqrt(1-rho^2)"].
Definition nm_cm1 : list string :=
  ["e^{-kh}"; "h"; "k^{-}"; "theta"; "sigma_v"; "rho"; "sqrt(1-rho^2)"].
Definition nm_mj : list string :=
  ["e^{-kh}"; "h"; "k^{-}"; "mu"; "theta"; "sigma_v"; "rho"; "sqrt(1-rho^2)"; "lambda"; "mu_j"; "sigma_j"].
Definition nm_cmj : list string :=
  ["e^{-kh}"; "h"; "k^{-}"; "theta"; "sigma_v"; "rho"; "sqrt(1-rho^2)"; "lambda"; "mu_j"; "sigma_j"].
Definition nm_ito : list string :=
  ["e^{k(n-1)h}"; "e^{k[t-(n-1)h]}"; "[t-(n-1)h]"; "v_{n-1}"; "k^{-}"; "theta"; "sigma_v"].
Definition nm_et2 : list string :=
  ["(n1*k1+n2*k2)^{-}"; "e^{(n1*k1+n2*k2)[t-(n-1)h]}"; "[t-(n-1)h]"].
Definition nm_itos : list string :=
  ["(n_1m*k1+n_2m*k2)^{-i_m},...,(n_11*k1+n_21*k2)^{-i_1}";
   "e^{(m_4*k1+m_6*k2)(n-1)h}"; "e^{(j_1*k1+j_2*k2)[t-(n-1)h]}"; "[t-(n-1)h]";
   "v_{1,n-1}"; "theta1"; "sigma_v1"; "v_{2,n-1}"; "theta2"; "sigma_v2"].
Definition nm2_m : list string :=
  ["(n_1m*k1+n_2m*k2)^{-i_m},...,(n_11*k1+n_21*k2)^{-i_1}"; "e^{-(n1*k1+n2*k2)h}"; "h"; "mu";
   "theta1"; "sigma_v1"; "theta2"; "sigma_v2"].
Definition nm2_cm : list string :=
  ["(n_1m*k1+n_2m*k2)^{-i_m},...,(n_11*k1+n_21*k2)^{-i_1}"; "e^{-(n1*k1+n2*k2)h}"; "h";
   "theta1"; "sigma_v1"; "theta2"; "sigma_v2"].
Definition nm2_mj : list string :=
  ["(n_1m*k1+n_2m*k2)^{-i_m},...,(n_11*k1+n_21*k2)^{-i_1}"; "e^{-(n1*k1+n2*k2)h}"; "h"; "mu";
   "theta1"; "sigma_v1"; "theta2"; "sigma_v2"; "lambda"; "mu_j"; "sigma_j"].
Definition nm2_cmj : list string :=
  ["(n_1m*k1+n_2m*k2)^{-i_m},...,(n_11*k1+n_21*k2)^{-i_1}"; "e^{-(n1*k1+n2*k2)h}"; "h";
   "theta1"; "sigma_v1"; "theta2"; "sigma_v2"; "lambda"; "mu_j"; "sigma_j"].
