(** * C86: results do not depend on the backend; C87: vmap_n *)
From Coq Require Import Bool Reals List Arith ZArith Lia Lra.
From Verif Require Import Py Fsum Backend_Model Backend_Spec Reduce_Model Backend_Proofs.
Import ListNotations.
Local Open Scope bool_scope.
Local Open Scope nat_scope.

(** [pad]: same shape and same entry at every index inside it, for every number of dimensions and any number of padded ones *)
Theorem C86_pad : forall a padding, Nat.Even (length padding) -> length padding <= 2 * length (dims a) ->
  exists b c, pad_torch a padding = Ok b /\ pad_jax a padding = Ok c /\ dims b = dims c /\
    forall idx, length idx = length (dims b) -> (forall m, m < length (dims b) -> nth m idx 0 < nth m (dims b) 0) -> entry b idx = entry c idx.
Proof. intros a padding H1 H2. destruct (pad_same a padding H1 H2) as (b & c & E1 & E2 & E3 & E4). exists b, c. auto. Qed.
Print Assumptions C86_pad.
(** namely, for an image, with left, right, top and bottom margins *)
Theorem C86_pad_image : forall h w f l r t b, exists c, pad_torch (Arr [h; w] f) [l; r; t; b] = Ok c /\ dims c = [t + h + b; l + w + r] /\
  forall i j, entry c [i; j] = if (t <=? i) && (i <? t + h) && ((l <=? j) && (j <? l + w)) then f [i - t; j - l] else 0%R.
Proof.
  intros. eexists. split; [reflexivity|]. split; [reflexivity|]. intros i j. cbn [pad_axis entry nth dims set_nth length Nat.sub].
  destruct ((t <=? i) && (i <? t + h)); reflexivity.
Qed.
Print Assumptions C86_pad_image.
(** with more pairs than dimensions torch raises and jax ignores the rest *)
Theorem C86_pad_too_long : forall a padding, Nat.Even (length padding) -> 2 * length (dims a) < length padding ->
  pad_torch a padding = Raise RuntimeError /\ exists c, pad_jax a padding = Ok c.
Proof. exact pad_too_long. Qed.
Print Assumptions C86_pad_too_long.

(** [flatten]: same shape, as many entries as before *)
Theorem C86_flatten : forall shape s e sk ek, shape <> [] -> Forall (fun d => 0 < d) shape ->
  wrap_dim (length shape) s = Some sk -> wrap_dim (length shape) e = Some ek -> sk <= ek ->
  flatten_torch shape s e = flatten_jax shape s e /\ exists out, flatten_torch shape s e = Ok out /\ prod_dims out = prod_dims shape.
Proof. exact flatten_same. Qed.
Print Assumptions C86_flatten.
(** as the lens methods call it: one axis holding all entries *)
Theorem C86_flatten_all : forall shape, shape <> [] -> Forall (fun d => 0 < d) shape ->
  flatten_torch shape 0 (-1) = Ok [prod_dims shape] /\ flatten_jax shape 0 (-1) = Ok [prod_dims shape].
Proof.
  intros shape Hne Hpos. assert (L : 0 < length shape) by (destruct shape; [contradiction|simpl; lia]).
  assert (W0 : wrap_dim (length shape) 0 = Some 0).
  { unfold wrap_dim. replace ((- Z.of_nat (length shape) <=? 0)%Z) with true by (symmetry; apply Z.leb_le; lia).
    replace ((0 <? Z.of_nat (length shape))%Z) with true by (symmetry; apply Z.ltb_lt; lia). reflexivity. }
  assert (W1 : wrap_dim (length shape) (-1) = Some (length shape - 1)).
  { unfold wrap_dim. replace ((- Z.of_nat (length shape) <=? -1)%Z) with true by (symmetry; apply Z.leb_le; lia).
    replace ((-1 <? Z.of_nat (length shape))%Z) with true by (symmetry; apply Z.ltb_lt; lia). cbn [andb].
    rewrite <- (Z.mod_add (-1) 1) by lia. rewrite Z.mod_small by lia. f_equal. lia. }
  destruct (flatten_same shape 0 (-1) 0 (length shape - 1) Hne Hpos W0 W1 ltac:(lia)) as [E _]. rewrite <- E.
  assert (T : flatten_torch shape 0 (-1) = Ok [prod_dims shape]); [|split; exact T].
  destruct shape as [|d0 sh]; [contradiction|]. set (shape := d0 :: sh) in *. unfold flatten_torch. unfold shape at 1. fold shape. rewrite W0, W1.
  destruct (Nat.ltb_spec (length shape - 1) 0); [lia|]. replace (length shape - 1 + 1) with (length shape) by lia.
  rewrite Nat.sub_0_r. cbn [firstn skipn app]. rewrite firstn_all, skipn_all. reflexivity.
Qed.
Print Assumptions C86_flatten_all.
(** REFUTED for a scalar: torch makes one entry of it, jax divides by zero.  So the methods of a lens that flatten their arguments
    (Jacobian, magnification, deflection from the potential) take scalars with torch only *)
Theorem C86_flatten_scalar_refuted : flatten_torch [] 0 (-1) = Ok [1] /\ flatten_jax [] 0 (-1) = Raise ZeroDivisionError.
Proof. split; reflexivity. Qed.
Print Assumptions C86_flatten_scalar_refuted.

(** [avg_pool2d] without padding *)
Theorem C86_avg_pool2d : forall im kernel stride, 1 <= kernel -> kernel <= rows im -> kernel <= cols im -> stride <> Some 0 ->
  exists a b, avg_pool2d_torch im kernel stride 0 = Ok a /\ avg_pool2d_jax im kernel stride 0 = Ok b /\ rows a = rows b /\ cols a = cols b /\
    forall i j, i < rows a -> j < cols a -> pixel a i j = pixel b i j.
Proof. exact avg_pool_same. Qed.
Print Assumptions C86_avg_pool2d.
(** what they return: the means of all windows that fit, s apart, and s is the stride or the size of a window *)
Theorem C86_avg_pool2d_windows : forall im kernel stride s, 1 <= kernel -> kernel <= rows im -> kernel <= cols im -> 1 <= s -> stride = Some s \/ stride = None /\ s = kernel ->
  exists a, avg_pool2d_torch im kernel stride 0 = Ok a /\ (forall i, i < rows a <-> i * s + kernel <= rows im) /\ (forall j, j < cols a <-> j * s + kernel <= cols im) /\
    forall i j, i < rows a -> j < cols a -> (INR (kernel * kernel) * pixel a i j = fsum kernel (fun p => fsum kernel (fun q => pixel im (i * s + p) (j * s + q))))%R.
Proof. exact avg_pool_windows. Qed.
Print Assumptions C86_avg_pool2d_windows.
(** REFUTED with padding, which jax ignores *)
Theorem C86_avg_pool2d_refuted : exists im a b, avg_pool2d_torch im 2 None 1 = Ok a /\ avg_pool2d_jax im 2 None 1 = Ok b /\ rows a <> rows b.
Proof.
  exists (Image 2 2 (fun _ _ => 1%R)). eexists. eexists. split; [reflexivity|]. split; [reflexivity|]. cbv. discriminate.
Qed.
Print Assumptions C86_avg_pool2d_refuted.

(** [upsample2d]: torch keeps the total; REFUTED: of a constant image torch makes c / scale^2, jax c, at every pixel *)
Theorem C86_upsample_total : forall h w f scale, 1 <= scale ->
  fsum (h * scale) (fun i => fsum (w * scale) (fun j => pixel (upsample2d_torch (Image h w f) scale) i j)) = fsum h (fun i => fsum w (fun j => f i j)).
Proof. exact upsample_torch_total. Qed.
Print Assumptions C86_upsample_total.
Theorem C86_upsample_refuted : forall h w c scale i j, 2 <= scale -> i < h * scale -> j < w * scale -> (c <> 0)%R ->
  pixel (upsample2d_torch (Image h w (fun _ _ => c)) scale) i j <> pixel (upsample2d_jax (Image h w (fun _ _ => c)) scale) i j.
Proof.
  intros h w c scale i j Hs Hi Hj Hc. destruct (upsample_constant h w c scale i j ltac:(lia) Hi Hj) as [-> ->].
  assert (S : (2 <= INR scale)%R) by (change 2%R with (INR 2); apply le_INR; exact Hs). intros E.
  assert (F : (c = c * INR scale ^ 2)%R) by (rewrite <- E at 2; field; lra).
  assert (G : (c * (INR scale ^ 2 - 1) = 0)%R) by lra. apply Rmult_integral in G. destruct G as [G|G]; [contradiction|nra].
Qed.
Print Assumptions C86_upsample_refuted.

(** updates at distinct positions return the same; REFUTED for repeated ones *)
Theorem C86_add_at_indices : forall ivs, NoDup (map fst ivs) -> forall l, snd (add_at_indices_torch l ivs) = snd (add_at_indices_jax l ivs).
Proof. exact add_same. Qed.
Print Assumptions C86_add_at_indices.
Theorem C86_add_at_indices_refuted : snd (add_at_indices_torch [0%R] [(0, 1%R); (0, 1%R)]) <> snd (add_at_indices_jax [0%R] [(0, 1%R); (0, 1%R)]).
Proof. cbn. intros E. injection E. lra. Qed.
Print Assumptions C86_add_at_indices_refuted.
(** and torch changes the array it is given where jax leaves it alone *)
Theorem C86_in_place : forall l ivs, fst (fill_at_indices_jax l ivs) = l /\ fst (add_at_indices_jax l ivs) = l /\
  fst (fill_at_indices_torch l ivs) = snd (fill_at_indices_torch l ivs) /\ fst (add_at_indices_torch l ivs) = snd (add_at_indices_torch l ivs).
Proof. intros. repeat split; reflexivity. Qed.
Print Assumptions C86_in_place.
Theorem C86_in_place_refuted : exists l ivs, fst (fill_at_indices_torch l ivs) <> fst (fill_at_indices_jax l ivs).
Proof. exists [0%R], [(0, 1%R)]. cbn. intros E. injection E. lra. Qed.
Print Assumptions C86_in_place_refuted.

(** [chunk]: same pieces if the number of chunks divides the length (C13 shows that vmap_reduce gives the same otherwise too) *)
Theorem C86_chunk : forall A chunks (l : list A), 1 <= chunks -> l <> [] -> Nat.divide chunks (length l) -> chunk_torch chunks l = chunk_jax chunks l.
Proof. exact @chunk_same. Qed.
Print Assumptions C86_chunk.
Theorem C86_chunk_refuted : chunk_torch 4 (seq 0 5) = [[0; 1]; [2; 3]; [4]] /\ chunk_jax 4 (seq 0 5) = [[0; 1]; [2]; [3]; [4]].
Proof. split; reflexivity. Qed.
Print Assumptions C86_chunk_refuted.
Example C86_hyps : Nat.Even (length [1; 2; 3; 4]) /\ length [1; 2; 3; 4] <= 2 * length (dims (Arr [5; 6; 7] (fun _ => 1%R))) /\
  wrap_dim 3 (-3) = Some 0 /\ wrap_dim 3 (-2) = Some 1 /\ NoDup (map fst [(1, 2%R); (0, 3%R)]) /\ Nat.divide 4 8.
Proof.
  split; [exists 2; reflexivity|]. split; [simpl; lia|]. split; [reflexivity|]. split; [reflexivity|].
  split; [simpl; repeat constructor; simpl; intuition discriminate|exists 2; reflexivity].
Qed.

(** ** C87: vmap_n applies the function at every index of the first [depth] axes *)
Theorem C87_vmap_n : forall A B (func : nest A -> result (nest B)) depth x, 1 <= depth -> (forall y, exists z, func y = Ok z) -> deep depth x ->
  exists f out, vmap_n func depth = Ok f /\ f x = Ok out /\
    forall p, length p = depth -> match at_path x p, at_path out p with Some y, Some z => func y = Ok z | None, None => True | _, _ => False end.
Proof.
  intros A B func depth x Hd Tot Hx. destruct (vmap_n_spec func depth x Tot Hx) as [out [H1 H2]]. exists (Nat.iter depth vmap func), out.
  split; [unfold vmap_n; destruct (Nat.ltb_spec depth 1); [lia|reflexivity]|]. split; assumption.
Qed.
Print Assumptions C87_vmap_n.
(** missing axes and depth 0 raise *)
Theorem C87_shallow : forall A B (func : nest A -> result (nest B)) depth a, 1 <= depth -> exists f, vmap_n func depth = Ok f /\ f (Leaf a) = Raise ValueError.
Proof.
  intros A B func depth a Hd. exists (Nat.iter depth vmap func). split; [unfold vmap_n; destruct (Nat.ltb_spec depth 1); [lia|reflexivity]|].
  destruct depth; [lia|reflexivity].
Qed.
Print Assumptions C87_shallow.
Theorem C87_depth : forall A B (func : nest A -> result (nest B)), vmap_n func 0 = Raise ValueError.
Proof. reflexivity. Qed.
Print Assumptions C87_depth.
Example C87_hyps : deep 2 (Node [Node [Leaf 1; Leaf 2]; Node [Leaf 3]]) /\ at_path (Node [Node [Leaf 1; Leaf 2]; Node [Leaf 3]]) [0; 1] = Some (Leaf 2).
Proof. split; [simpl; intros y [<-|[<-|[]]] z [<-|[]]; exact I || (intros y [<-|[<-|[]]]; simpl; auto)|reflexivity]. Qed.
