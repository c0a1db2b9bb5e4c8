(** * Physical constants (model of src/caustics/constants.py, lines 19-32).
    astropy's CODATA 2018 / IAU 2015 values, which are exact by definition except G M_sun,
    for which astropy uses the nominal IAU value; binary rounding is ignored. *)
From Coq Require Import Reals Lra.
Open Scope R_scope.

(** constants.py:20-25 *)
Definition rad_to_arcsec : R := 180 / PI * 60 ^ 2.
Definition arcsec_to_rad : R := 1 / rad_to_arcsec.
Definition rad_to_deg : R := 180 / PI.
Definition deg_to_rad : R := 1 / rad_to_deg.
Definition arcsec_to_deg : R := 1 / 60 ^ 2.
Definition deg_to_arcsec : R := 60 ^ 2.
(** speed of light in m/s (CODATA, exact) *)
Definition c_SI : R := 299792458.
(** astronomical unit and parsec in m (IAU, exact) *)
Definition parsec_m : R := 149597870700 * 648000 / PI.
(** nominal solar mass parameter G M_sun in m^3/s^2 (IAU 2015, exact) *)
Definition GM_sun : R := 132712440000000000000.
(** constants.py:26 c in km/s *)
Definition c_km_s : R := c_SI / 1000.
(** constants.py:27 G in pc km^2 / (s^2 solMass) *)
Definition G : R := GM_sun / parsec_m / 1000000.
(** constants.py:28 G/c^2 in Mpc / solMass *)
Definition G_over_c2 : R := GM_sun / c_SI ^ 2 / (parsec_m * 1000000).
(** constants.py:29 c in Mpc/s *)
Definition c_Mpc_s : R := c_SI / (parsec_m * 1000000).
(** constants.py:30 *)
Definition km_to_Mpc : R := 32407792896664 / 10 ^ 33.
(** constants.py:31 *)
Definition days_to_seconds : R := 24 * 60 * 60.

Lemma rad_to_arcsec_pos : 0 < rad_to_arcsec.
Proof.
  assert (P := PI_RGT_0). unfold rad_to_arcsec.
  apply Rmult_lt_0_compat; [apply Rdiv_lt_0_compat; lra | lra].
Qed.
Lemma arcsec_to_rad_pos : 0 < arcsec_to_rad.
Proof. apply Rdiv_lt_0_compat; [lra | apply rad_to_arcsec_pos]. Qed.
Lemma arcsec_rad_inv : arcsec_to_rad * rad_to_arcsec = 1.
Proof. unfold arcsec_to_rad. field. apply Rgt_not_eq, rad_to_arcsec_pos. Qed.
Lemma rad_to_deg_pos : 0 < rad_to_deg.
Proof. assert (P := PI_RGT_0). apply Rdiv_lt_0_compat; lra. Qed.
Lemma deg_to_rad_pos : 0 < deg_to_rad.
Proof. apply Rdiv_lt_0_compat; [lra | apply rad_to_deg_pos]. Qed.
Lemma deg_rad_inv : deg_to_rad * rad_to_deg = 1.
Proof. unfold deg_to_rad. field. apply Rgt_not_eq, rad_to_deg_pos. Qed.
Lemma parsec_m_pos : 0 < parsec_m.
Proof. assert (P := PI_RGT_0). apply Rdiv_lt_0_compat; lra. Qed.
Lemma c_SI_pos : 0 < c_SI.
Proof. unfold c_SI; lra. Qed.
Lemma c_km_s_pos : 0 < c_km_s.
Proof. unfold c_km_s, c_SI; lra. Qed.
Lemma G_over_c2_pos : 0 < G_over_c2.
Proof.
  assert (P := parsec_m_pos). unfold G_over_c2, GM_sun, c_SI.
  apply Rdiv_lt_0_compat; lra.
Qed.
Lemma G_pos : 0 < G.
Proof.
  assert (P := parsec_m_pos). unfold G, GM_sun.
  apply Rdiv_lt_0_compat; [apply Rdiv_lt_0_compat|]; lra.
Qed.
Lemma c_Mpc_s_pos : 0 < c_Mpc_s.
Proof. assert (P := parsec_m_pos). unfold c_Mpc_s, c_SI. apply Rdiv_lt_0_compat; lra. Qed.
Lemma km_to_Mpc_pos : 0 < km_to_Mpc.
Proof. unfold km_to_Mpc. apply Rdiv_lt_0_compat; [lra | apply pow_lt; lra]. Qed.
Lemma days_pos : 0 < days_to_seconds.
Proof. unfold days_to_seconds; lra. Qed.
(** the two gravitational constants are consistent: G/c^2 in Mpc is G/c^2 in pc, times 1e-6 *)
Lemma G_consistent : G_over_c2 = G / c_km_s ^ 2 / 1000000.
Proof.
  assert (P := parsec_m_pos). unfold G_over_c2, G, c_km_s, c_SI, GM_sun. field. lra.
Qed.
