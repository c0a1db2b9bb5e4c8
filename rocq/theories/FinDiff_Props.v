(** * C93: the finite-difference Jacobian approximates the automatic one to second order *)
From Coq Require Import Reals Lra Arith String.
From Coquelicot Require Import Coquelicot.
From Verif Require Import Py LensBase_Model Geo_Model FinDiff_Spec FinDiff_Proofs.
Local Open Scope R_scope.

Theorem C93_second_order : forall alpha ps nx ny, 0 < ps -> (2 <= nx)%nat -> (2 <= ny)%nat ->
  let '(shape, X, Y) := meshgrid ps nx (Some ny) in
  exists J Ja A Aa, jacobian_deflection_angle alpha shape X Y "finitediff" (Some ps) = Ok J /\ jacobian_deflection_angle alpha shape X Y "autograd" None = Ok Ja /\
    jacobian_lens_equation alpha shape X Y "finitediff" (Some ps) = Ok A /\ jacobian_lens_equation alpha shape X Y "autograd" None = Ok Aa /\
    forall i j d M2 M3, (i < ny)%nat -> (j < nx)%nat -> ps < d -> smooth_field_near alpha (X i j) (Y i j) d M2 M3 ->
      let close B C := Rabs (m00 B - m00 C) <= fd_error nx j ps M2 M3 /\ Rabs (m01 B - m01 C) <= fd_error ny i ps M2 M3 /\
                       Rabs (m10 B - m10 C) <= fd_error nx j ps M2 M3 /\ Rabs (m11 B - m11 C) <= fd_error ny i ps M2 M3 in
      close (J i j) (Ja i j) /\ close (A i j) (Aa i j).
Proof. exact finitediff_accurate. Qed.
Print Assumptions C93_second_order.

Example C93_hyps : forall x y, smooth_field_near (fun u v => (u ^ 2 + v, u * v)) x y 1 2 0 /\ fd_error 5 2 (1 / 10) 2 6 = 1 / 100 /\ fd_error 5 4 (1 / 10) 2 6 = 1 / 10.
Proof. intros x y. split; [apply smooth_example|]. unfold fd_error; cbn [Nat.eqb orb Nat.sub]. split; field. Qed.
