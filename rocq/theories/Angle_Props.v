(** * C37-C40: ellipticity conversions and parametrization switches *)
From Coq Require Import Reals List String Lra.
From Verif Require Import Py RealFun Angle_Model Angle_Spec Angle_Proofs Angle2_Proofs.
Import ListNotations.
Open Scope R_scope.
Open Scope string_scope.

(** C37 *)
Theorem C37_e_roundtrip : forall e1 e2, e1 ^ 2 + e2 ^ 2 <= 1 ->
  (let '(q, phi) := e1e2_to_qphi e1 e2 in qphi_to_e1e2 q phi) = (e1, e2).
Proof. exact e_roundtrip. Qed.
Print Assumptions C37_e_roundtrip.
Example C37_hyps : (3 / 10) ^ 2 + (4 / 10) ^ 2 <= 1.
Proof. lra. Qed.

Theorem C37_q_roundtrip : forall q phi, 0 <= q <= 1 ->
  let '(e1, e2) := qphi_to_e1e2 q phi in
  e1e2_to_q e1 e2 = q /\ (q < 1 -> exists k : Z, e1e2_to_phi e1 e2 = phi + IZR k * PI).
Proof. exact q_roundtrip_e. Qed.
Print Assumptions C37_q_roundtrip.
Theorem C37_q_range : forall e1 e2, 0 <= fst (e1e2_to_qphi e1 e2) <= 1.
Proof. exact e_q_range. Qed.
Print Assumptions C37_q_range.

(** C38 *)
Theorem C38_c_roundtrip : forall c1 c2,
  (let '(q, phi) := c1c2_to_qphi c1 c2 in qphi_to_c1c2 q phi) = Some (c1, c2).
Proof. exact c_roundtrip. Qed.
Print Assumptions C38_c_roundtrip.
Theorem C38_q_roundtrip : forall q phi, 0 < q <= 1 ->
  exists c1 c2, qphi_to_c1c2 q phi = Some (c1, c2) /\
  c1c2_to_q c1 c2 = q /\ (q < 1 -> exists k : Z, c1c2_to_phi c1 c2 = phi + IZR k * PI).
Proof. exact q_roundtrip_c. Qed.
Print Assumptions C38_q_roundtrip.
Theorem C38_q_range : forall c1 c2, 0 < fst (c1c2_to_qphi c1 c2) <= 1.
Proof. exact c_q_range. Qed.
Print Assumptions C38_q_range.

(** C39: every history of an elliptical lens, under every caskade policy *)
Theorem C39_any_history : forall pol s,
  reachable pol (set_angle_system pol) free_params
    (new_object "q_phi" ["q"; "phi"] ["e1"; "e2"; "c1"; "c2"]) s ->
  (sys s = "q_phi" /\ Forall (absent s) ["e1"; "e2"; "c1"; "c2"] /\ is_free s "q" /\ is_free s "phi") \/
  (sys s = "e1_e2" /\ Forall (absent s) ["c1"; "c2"] /\ is_free s "e1" /\ is_free s "e2" /\
   depends_on s "q" ["e1"; "e2"] /\ depends_on s "phi" ["e1"; "e2"] /\
   forall e1 e2, value_of s "e1" = Some e1 -> value_of s "e2" = Some e2 -> e1 ^ 2 + e2 ^ 2 <= 1 ->
     exists q phi, value_of s "q" = Some q /\ value_of s "phi" = Some phi /\ 0 <= q <= 1 /\
       e1 = (1 - q) * cos (2 * phi) / (1 + q) /\ e2 = (1 - q) * sin (2 * phi) / (1 + q)) \/
  (sys s = "c1_c2" /\ Forall (absent s) ["e1"; "e2"] /\ is_free s "c1" /\ is_free s "c2" /\
   depends_on s "q" ["c1"; "c2"] /\ depends_on s "phi" ["c1"; "c2"] /\
   forall c1 c2, value_of s "c1" = Some c1 -> value_of s "c2" = Some c2 ->
     exists q phi, value_of s "q" = Some q /\ value_of s "phi" = Some phi /\ 0 < q <= 1 /\
       c1 = (1 - q) * cos (2 * phi) / q /\ c2 = (1 - q) * sin (2 * phi) / q).
Proof. exact (fun pol s H => angle_observe s (angle_reach pol s H)). Qed.
Print Assumptions C39_any_history.

(** a valid name is accepted and becomes the current system (nothing changes if it already was);
    any other string raises ValueError and changes nothing *)
Theorem C39_switch : forall pol s v,
  reachable pol (set_angle_system pol) free_params
    (new_object "q_phi" ["q"; "phi"] ["e1"; "e2"; "c1"; "c2"]) s ->
  (In v ["q_phi"; "e1_e2"; "c1_c2"] -> snd (set_angle_system pol v s) = Ok tt /\
     sys (fst (set_angle_system pol v s)) = v /\ (sys s = v -> fst (set_angle_system pol v s) = s)) /\
  (~ In v ["q_phi"; "e1_e2"; "c1_c2"] -> set_angle_system pol v s = (s, Raise ValueError)).
Proof. exact (fun pol s v H => angle_switch pol s v (angle_reach pol s H)). Qed.
Print Assumptions C39_switch.

(** the history q_phi -> e1_e2 -> c1_c2 with values 3/10, 4/10 is one of them *)
Definition lens0 : module_ :=
  Module (fun k => if String.eqb k "q" then Some 0%nat else if String.eqb k "phi" then Some 1%nat else None)
         (fun _ => Param Unset []) 2%nat "q_phi".
Example C39_hyps : forall pol, exists s,
  reachable pol (set_angle_system pol) free_params
    (new_object "q_phi" ["q"; "phi"] ["e1"; "e2"; "c1"; "c2"]) s /\
  sys s = "c1_c2" /\ value_of s "c1" = Some (3 / 10) /\ value_of s "c2" = Some (4 / 10).
Proof.
  intros [au du]. eexists. split.
  - eapply (reach_assign _ _ _ _ _ "c2" (Some (4 / 10))).
    + eapply (reach_assign _ _ _ _ _ "c1" (Some (3 / 10))).
      * eapply (reach_switch _ _ _ _ _ "c1_c2"), (reach_switch _ _ _ _ _ "e1_e2"), (reach_new _ _ _ _ lens0).
        split; [reflexivity|]. split; [repeat constructor|]. exists [0%nat; 1%nat]. split; [reflexivity|].
        split; [repeat constructor; simpl; intuition discriminate|]. split; [repeat constructor|].
        repeat constructor; try (eexists; split; [reflexivity|reflexivity]);
        try (intros (? & ? & _ & Hf); discriminate); unfold exists_param; cbn; discriminate.
      * change (In "c1" (free_params "c1_c2")). left; reflexivity.
    + change (In "c2" (free_params "c1_c2")). right; left; reflexivity.
  - split; [reflexivity|]. destruct au, du; split; reflexivity.
Qed.

(** C40 *)
Theorem C40_shear_any_history : forall pol s,
  reachable pol (set_parametrization_shear pol) shear_free
    (new_object "cartesian" ["gamma_1"; "gamma_2"] ["gamma"; "phi"]) s ->
  (sys s = "cartesian" /\ Forall (absent s) ["gamma"; "phi"] /\ is_free s "gamma_1" /\ is_free s "gamma_2") \/
  (sys s = "angular" /\ is_free s "gamma" /\ is_free s "phi" /\
   depends_on s "gamma_1" ["gamma"; "phi"] /\ depends_on s "gamma_2" ["gamma"; "phi"] /\
   forall g p, value_of s "gamma" = Some g -> value_of s "phi" = Some p ->
     value_of s "gamma_1" = Some (g * cos (2 * p)) /\ value_of s "gamma_2" = Some (g * sin (2 * p))).
Proof. exact (fun pol s H => shear_observe s (shear_reach pol s H)). Qed.
Print Assumptions C40_shear_any_history.
Theorem C40_shear_switch : forall pol s v,
  reachable pol (set_parametrization_shear pol) shear_free
    (new_object "cartesian" ["gamma_1"; "gamma_2"] ["gamma"; "phi"]) s ->
  (In v ["cartesian"; "angular"] -> snd (set_parametrization_shear pol v s) = Ok tt /\
     sys (fst (set_parametrization_shear pol v s)) = v /\ (sys s = v -> fst (set_parametrization_shear pol v s) = s)) /\
  (~ In v ["cartesian"; "angular"] -> set_parametrization_shear pol v s = (s, Raise ValueError)).
Proof. exact (fun pol s v H => shear_switch pol s v (shear_reach pol s H)). Qed.
Print Assumptions C40_shear_switch.

(** Point and SIE, when caskade drops the links of a parameter that gets a plain value *)
Theorem C40_point_any_history_partial : forall pol conv s, auto_unlink pol = true ->
  reachable pol (set_parametrization_rein pol "mass" "mass" conv) (rein_free "mass")
    (new_object "Rein" ["Rein"; "z_l"; "z_s"] ["mass"]) s ->
  (sys s = "Rein" /\ absent s "mass" /\ is_free s "Rein") \/
  (sys s = "mass" /\ is_free s "mass" /\ depends_on s "Rein" ["mass"; "z_s"; "z_l"] /\
   forall m zl zs, value_of s "mass" = Some m -> value_of s "z_l" = Some zl -> value_of s "z_s" = Some zs ->
     value_of s "Rein" = Some (conv m zl zs)).
Proof.
  exact (fun pol conv s Ea H => rein_observe "mass" "mass" conv s ltac:(discriminate) ltac:(discriminate) ltac:(discriminate)
           (point_reach pol conv s Ea H)).
Qed.
Print Assumptions C40_point_any_history_partial.
Theorem C40_point_switch_partial : forall pol conv s v, auto_unlink pol = true ->
  reachable pol (set_parametrization_rein pol "mass" "mass" conv) (rein_free "mass")
    (new_object "Rein" ["Rein"; "z_l"; "z_s"] ["mass"]) s ->
  let set := set_parametrization_rein pol "mass" "mass" conv in
  (In v ["Rein"; "mass"] -> snd (set v s) = Ok tt /\ sys (fst (set v s)) = v /\ (sys s = v -> fst (set v s) = s)) /\
  (~ In v ["Rein"; "mass"] -> set v s = (s, Raise ValueError)).
Proof. exact (fun pol conv s v Ea H => point_switch pol conv s v Ea (point_reach pol conv s Ea H)). Qed.
Print Assumptions C40_point_switch_partial.
Theorem C40_sie_any_history_partial : forall pol conv s, auto_unlink pol = true ->
  reachable pol (set_parametrization_rein pol "velocity_dispersion" "sigma_v" conv) (rein_free "sigma_v")
    (new_object "Rein" ["Rein"; "z_l"; "z_s"] ["sigma_v"]) s ->
  (sys s = "Rein" /\ absent s "sigma_v" /\ is_free s "Rein") \/
  (sys s = "velocity_dispersion" /\ is_free s "sigma_v" /\ depends_on s "Rein" ["sigma_v"; "z_s"; "z_l"] /\
   forall m zl zs, value_of s "sigma_v" = Some m -> value_of s "z_l" = Some zl -> value_of s "z_s" = Some zs ->
     value_of s "Rein" = Some (conv m zl zs)).
Proof.
  exact (fun pol conv s Ea H => rein_observe "velocity_dispersion" "sigma_v" conv s ltac:(discriminate) ltac:(discriminate)
           ltac:(discriminate) (sie_reach pol conv s Ea H)).
Qed.
Print Assumptions C40_sie_any_history_partial.
Theorem C40_sie_switch_partial : forall pol conv s v, auto_unlink pol = true ->
  reachable pol (set_parametrization_rein pol "velocity_dispersion" "sigma_v" conv) (rein_free "sigma_v")
    (new_object "Rein" ["Rein"; "z_l"; "z_s"] ["sigma_v"]) s ->
  let set := set_parametrization_rein pol "velocity_dispersion" "sigma_v" conv in
  (In v ["Rein"; "velocity_dispersion"] -> snd (set v s) = Ok tt /\ sys (fst (set v s)) = v /\ (sys s = v -> fst (set v s) = s)) /\
  (~ In v ["Rein"; "velocity_dispersion"] -> set v s = (s, Raise ValueError)).
Proof. exact (fun pol conv s v Ea H => sie_switch pol conv s v Ea (sie_reach pol conv s Ea H)). Qed.
Print Assumptions C40_sie_switch_partial.

(** Point never unlinks by itself: if caskade keeps the links, Rein -> mass -> Rein leaves a stale
    link, and with a caskade that refuses a second link under the same key the next switch to mass
    raises. *)
Theorem C40_point_stale_link_refuted : forall du conv, exists s,
  reachable (Policy false du) (set_parametrization_rein (Policy false du) "mass" "mass" conv) (rein_free "mass")
    (new_object "Rein" ["Rein"; "z_l"; "z_s"] ["mass"]) s /\
  sys s = "Rein" /\ ~ depends_on s "Rein" [].
Proof. exact point_stale_any. Qed.
Print Assumptions C40_point_stale_link_refuted.
Theorem C40_point_second_switch_refuted : forall conv, exists s,
  reachable (Policy false true) (set_parametrization_rein (Policy false true) "mass" "mass" conv) (rein_free "mass")
    (new_object "Rein" ["Rein"; "z_l"; "z_s"] ["mass"]) s /\
  sys s = "Rein" /\ ~ depends_on s "Rein" [] /\
  snd (set_parametrization_rein (Policy false true) "mass" "mass" conv "mass" s) = Raise AttributeError.
Proof. exact point_stale. Qed.
Print Assumptions C40_point_second_switch_refuted.
Example C40_hyps : exists s,
  reachable (Policy true true) (set_parametrization_rein (Policy true true) "mass" "mass" (fun m _ _ => m)) (rein_free "mass")
    (new_object "Rein" ["Rein"; "z_l"; "z_s"] ["mass"]) s /\ sys s = "mass".
Proof.
  eexists. split; [eapply (reach_switch _ _ _ _ _ "mass"), (reach_new _ _ _ _ point0), point0_new; discriminate|reflexivity].
Qed.
