(** * Vocabulary for the derivatives of several lenses *)
From Coq Require Import Reals List Arith.
From Coquelicot Require Import Coquelicot.
From Verif Require Import Py Const_Model Cosmo_Model LensBase_Model LensBasic_Model Multiplane_Model Ad_Model Ad_Spec Rev_Spec AdLens_Model AdMulti_Model.
Import ListNotations.
Local Open Scope R_scope.

(** The program [t] denotes F near the arguments, its dual number is the value and the derivative, and it has no tangent only where it does not change:
    what is needed to go on computing with it. *)
Definition followed (a : nat -> R) (seed : nat -> option R) (F : (nat -> R) -> R) (t : expr) : Prop :=
  exact a seed t /\ (snd (jvp a seed t) = None -> locally 0 (fun h => ev (along a seed h) t = ev a t)) /\
  locally 0 (fun h => F (along a seed h) = ev (along a seed h) t).
(** the same for backpropagation *)
Definition followed_back (a : nat -> R) (req : nat -> bool) (F : (nat -> R) -> R) (t : expr) : Prop :=
  tame a t /\ ev a t = F a /\ forall k, req k = true -> followed a (one_of req k) F t.

(** a lens that depends on the arguments, its program, and the points where it can be differentiated *)
Record traced := Traced { lens_at : (nat -> R) -> thin_lens; program : t_thin; fine : R -> R -> Prop }.
Definition redshift (L : traced) : R := t_z (program L).

(** several lenses in one plane: SinglePlane *)
Definition all_fine (Ls : list traced) (x y : R) : Prop := forall L, In L Ls -> fine L x y.
Definition plane_of (z : R) (Ls : list traced) : traced := Traced (fun b => singleplane z (map (fun L => lens_at L b) Ls)) (t_singleplane z (map program Ls)) (all_fine Ls).

Section Follow.
Variable Rel : ((nat -> R) -> R) -> expr -> Prop.
Variable a : nat -> R.
(** whenever the position follows and is a fine one, so does the quantity there *)
Definition quantity_follows (ok : R -> R -> Prop) (F : (nat -> R) -> R -> R -> R) (T : expr -> expr -> expr) : Prop :=
  forall x y dx dy, Rel x dx -> Rel y dy -> ok (x a) (y a) -> Rel (fun b => F b (x b) (y b)) (T dx dy).
Definition vector_follows (ok : R -> R -> Prop) (F : (nat -> R) -> R -> R -> R * R) (T : expr -> expr -> expr * expr) : Prop :=
  quantity_follows ok (fun b x y => fst (F b x y)) (fun x y => fst (T x y)) /\ quantity_follows ok (fun b x y => snd (F b x y)) (fun x y => snd (T x y)).
Definition deflects (L : traced) : Prop :=
  (forall b, z_l (lens_at L b) = redshift L) /\ vector_follows (fine L) (fun b => reduced_deflection_angle (lens_at L b)) (t_deflection (program L)).
Definition delays (L : traced) : Prop := quantity_follows (fine L) (fun b => potential (lens_at L b)) (t_psi (program L)).
Definition weighs (L : traced) : Prop := quantity_follows (fine L) (fun b => convergence (lens_at L b)) (t_kappa (program L)).

(** a pair or a number that follows, or the same error *)
Definition pair_follows (r : (nat -> R) -> result (R * R)) (t : result (expr * expr)) : Prop :=
  match t with
  | Ok p => exists v, (forall b, r b = Ok (v b)) /\ Rel (fun b => fst (v b)) (fst p) /\ Rel (fun b => snd (v b)) (snd p)
  | Raise e => forall b, r b = Raise e
  end.
Definition delay_value (r : result (option R)) : R := match r with Ok (Some v) => v | _ => 0 end.
Definition delay_follows (r : (nat -> R) -> result (option R)) (t : result expr) : Prop :=
  match t with
  | Ok e => (forall b, exists v, r b = Ok v) /\ (exists v, r a = Ok (Some v)) /\ Rel (fun b => delay_value (r b)) e
  | Raise e => forall b, r b = Raise e
  end.
End Follow.

Section Planes.
Variables (cd tcd : (nat -> R) -> R -> R) (a : nat -> R) (Ls : list traced) (z_s : R).
(** the distances at the redshifts that occur are not zero, and no lens is at the distance of the source *)
Definition distances_fine : Prop :=
  1 + z_s <> 0 /\ cd a z_s <> 0 /\ tcd a z_s <> 0 /\ forall L, In L Ls -> tcd a (redshift L) <> 0 /\ cd a (redshift L) <> cd a z_s.
(** no two planes coincide *)
Definition planes_apart : Prop :=
  NoDup (z_s :: map redshift Ls) /\ forall z z', In z (z_s :: map redshift Ls) -> In z' (z_s :: map redshift Ls) -> z <> z' -> tcd a z <> tcd a z'.
(** The ray that is at (X, Y) on the first of the [planes] with the direction (tx, ty) meets every lens at a fine point.  The plane after the i-th
    is the next of the list, except after the farthest. *)
Fixpoint meets (last : nat) (planes : list nat) (X Y tx ty : R) : Prop :=
  match planes with
  | [] => True
  | i :: rest =>
    match nth_error Ls i with
    | None => True
    | Some L =>
      let D_l := tcd a (redshift L) in
      let u := X * rad_to_arcsec / D_l in
      let v := Y * rad_to_arcsec / D_l in
      fine L u v /\
      match (if Nat.eqb i last then Some z_s else nth_error (map redshift Ls) (i + 1)) with
      | None => True
      | Some z =>
        let D := tcd a z - D_l in
        let al := physical_deflection_angle (cd a) (lens_at L a) z_s u v in
        meets last rest (X + D * (tx - fst al) * arcsec_to_rad) (Y + D * (ty - snd al) * arcsec_to_rad) (tx - fst al) (ty - snd al)
      end
    end
  end.
(** the ray seen at (x, y) *)
Definition meets_all (x y : R) : Prop :=
  let planes := lens_planes (map redshift Ls) in
  match planes with
  | [] => True
  | first :: _ =>
    let D := tcd a (nth first (map redshift Ls) 0) in
    meets (nth (length planes - 1) planes 0%nat) planes (x * arcsec_to_rad * D) (y * arcsec_to_rad * D) x y
  end.
End Planes.

Section Promise.
Variable Rel : ((nat -> R) -> R) -> expr -> Prop.
Variables (cd tcd : (nat -> R) -> R -> R) (t_cd t_tcd : R -> expr) (a : nat -> R) (Ls : list traced) (z_s : R) (x y : (nat -> R) -> R) (dx dy : expr).
(** the lenses, the distances to their redshifts and the position on the sky follow *)
Definition inputs_follow : Prop :=
  (forall L, In L Ls -> deflects Rel a L) /\
  (forall z, In z (z_s :: map redshift Ls) -> Rel (fun b => cd b z) (t_cd z) /\ Rel (fun b => tcd b z) (t_tcd z)) /\ Rel x dx /\ Rel y dy.
End Promise.
Section Result.
Variable Rel : ((nat -> R) -> R) -> expr -> Prop.
Variables (cd tcd : (nat -> R) -> R -> R) (t_cd t_tcd : R -> expr) (a : nat -> R) (Ls : list traced) (z_s : R) (x y : (nat -> R) -> R) (dx dy : expr).
(** what Multiplane returns follows *)
Definition rays_follow : Prop :=
  pair_follows Rel (fun b => multiplane_raytrace (cd b) (tcd b) (map (fun L => lens_at L b) Ls) z_s (x b) (y b)) (t_multiplane_raytrace t_cd t_tcd (map program Ls) z_s dx dy) /\
  pair_follows Rel (fun b => multiplane_effective_deflection (cd b) (tcd b) (map (fun L => lens_at L b) Ls) z_s (x b) (y b)) (t_multiplane_effective_deflection t_cd t_tcd (map program Ls) z_s dx dy).
Definition delays_follow : Prop := forall shapiro geometric,
  delay_follows Rel a (fun b => multiplane_time_delay (cd b) (tcd b) (map (fun L => lens_at L b) Ls) z_s (x b) (y b) shapiro geometric)
    (t_multiplane_time_delay t_cd t_tcd (map program Ls) z_s dx dy shapiro geometric).
(** and what one of the lenses returns by itself *)
Definition alone_follow (L : traced) : Prop :=
  vector_follows Rel a (fine L) (fun b => physical_deflection_angle (cd b) (lens_at L b) z_s) (t_physical_deflection t_cd (program L) z_s) /\
  (delays Rel a L -> 1 + redshift L <> 0 -> forall shapiro geometric,
   quantity_follows Rel a (fine L) (fun b x y => time_delay (cd b) (lens_at L b) z_s x y shapiro geometric) (fun x y => t_time_delay t_cd (program L) z_s x y shapiro geometric)).
End Result.

(** ** some lenses; the parameters are the arguments from n on, in the order of the constructor of the lens *)
Inductive kind := Sheet | Shear | Sis (s : R) | PointMass (s : R) | Sie (s : R).
Section Kinds.
Variable n : nat.
Definition kind_lens (k : kind) (z : R) (b : nat -> R) : thin_lens :=
  let p i := b (n + i)%nat in
  match k with
  | Sheet => ThinLens z (reduced_deflection_angle_mass_sheet (p 0%nat) (p 1%nat) (p 2%nat)) (potential_mass_sheet (p 0%nat) (p 1%nat) (p 2%nat)) (fun x _ => convergence_mass_sheet (p 2%nat) x)
  | Shear => ThinLens z (reduced_deflection_angle_external_shear (p 0%nat) (p 1%nat) (p 2%nat) (p 3%nat)) (potential_external_shear (p 0%nat) (p 1%nat) (p 2%nat) (p 3%nat)) convergence_external_shear
  | Sis s => ThinLens z (reduced_deflection_angle_sis (p 0%nat) (p 1%nat) (p 2%nat) s) (potential_sis (p 0%nat) (p 1%nat) (p 2%nat) s) (convergence_sis (p 0%nat) (p 1%nat) (p 2%nat) s)
  | PointMass s => ThinLens z (reduced_deflection_angle_point (p 0%nat) (p 1%nat) (p 2%nat) s) (potential_point (p 0%nat) (p 1%nat) (p 2%nat) s)
               (fun x y => match convergence_point (p 0%nat) (p 1%nat) x y with Some v => v | None => 0 end)
  | Sie s => ThinLens z (reduced_deflection_angle_sie (p 0%nat) (p 1%nat) (p 2%nat) (p 3%nat) (p 4%nat) s) (potential_sie (p 0%nat) (p 1%nat) (p 2%nat) (p 3%nat) (p 4%nat) s)
               (convergence_sie (p 0%nat) (p 1%nat) (p 2%nat) (p 3%nat) (p 4%nat) s)
  end.
Definition kind_program (k : kind) (z : R) : t_thin :=
  let p i := Var (n + i) in
  match k with
  | Sheet => TThin z (t_deflection_mass_sheet (p 0%nat) (p 1%nat) (p 2%nat)) (t_potential_mass_sheet (p 0%nat) (p 1%nat) (p 2%nat)) (fun _ _ => Mul (p 2%nat) (Cst 1))
  | Shear => TThin z (t_deflection_external_shear (p 0%nat) (p 1%nat) (p 2%nat) (p 3%nat)) (t_potential_external_shear (p 0%nat) (p 1%nat) (p 2%nat) (p 3%nat)) (fun _ _ => Cst 0)
  | Sis s => TThin z (t_deflection_sis (p 0%nat) (p 1%nat) (p 2%nat) (Cst s)) (t_potential_sis (p 0%nat) (p 1%nat) (p 2%nat) (Cst s)) (t_convergence_sis (p 0%nat) (p 1%nat) (p 2%nat) (Cst s))
  | PointMass s => TThin z (t_deflection_point (p 0%nat) (p 1%nat) (p 2%nat) (Cst s)) (t_potential_point (p 0%nat) (p 1%nat) (p 2%nat) (Cst s)) (fun _ _ => Cst 0)
  | Sie s => TThin z (t_deflection_sie (p 0%nat) (p 1%nat) (p 2%nat) (p 3%nat) (p 4%nat) (Cst s)) (t_potential_sie (p 0%nat) (p 1%nat) (p 2%nat) (p 3%nat) (p 4%nat) (Cst s))
               (t_convergence_sie (p 0%nat) (p 1%nat) (p 2%nat) (p 3%nat) (p 4%nat) (Cst s))
  end.
(** away from the centre, or anywhere if an isothermal ellipsoid is softened; sheets and shears anywhere *)
Definition kind_fine (k : kind) (a : nat -> R) (x y : R) : Prop :=
  match k with Sheet | Shear => True | Sis _ | PointMass _ => x <> a n \/ y <> a (n + 1)%nat | Sie s => (x <> a n \/ y <> a (n + 1)%nat) \/ 0 < s end.
(** softening lengths are not negative and the axis ratio of an ellipsoid is in its range; [fixed i]: argument i is not differentiated *)
Definition kind_proper (k : kind) (a : nat -> R) (fixed : nat -> Prop) : Prop :=
  match k with Sheet | Shear => True | Sis s | PointMass s => 0 <= s | Sie s => 0 <= s /\ 0 < a (n + 2)%nat <= 1 /\ (a (n + 2)%nat < 1 \/ fixed (n + 2)%nat) end.
Definition kind_traced (k : kind) (z : R) (a : nat -> R) : traced := Traced (kind_lens k z) (kind_program k z) (kind_fine k a).
End Kinds.
(** lenses given by the first argument of each, what it is, and its redshift *)
Definition cast : Type := list (nat * kind * R).
Definition traced_cast (a : nat -> R) (l : cast) : list traced := map (fun '(n, k, z) => kind_traced n k z a) l.
Definition cast_proper (a : nat -> R) (fixed : nat -> Prop) (l : cast) : Prop := forall n k z, In (n, k, z) l -> kind_proper n k a fixed.
(** the lenses at the arguments b *)
Definition lenses_of (l : cast) (b : nat -> R) : list thin_lens := map (fun '(n, k, z) => kind_lens n k z b) l.
Definition pair_value (r : result (R * R)) : R * R := match r with Ok p => p | Raise _ => (0, 0) end.
