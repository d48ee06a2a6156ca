(** C05, C06, C55: drawing points and cells. *)
From Verif Require Import Base Num Sampling SamplingSpec SamplingProofs.
From Coq Require Import Reals Lra.
Local Open Scope R_scope.

(** ** C05: boxes and simplices *)
Theorem C05_box_inside (u : nat -> R) k xmin xmax :
  length xmax = length xmin ->
  (forall j, 0 <= u j < 1) ->
  (forall i, (i < length xmin)%nat -> nth i xmin 0 <= nth i xmax 0) ->
  exists d, box_sample u k xmin xmax = Ok d /\ length d = length xmin /\
    forall i, (i < length xmin)%nat -> nth i xmin 0 <= nth i d 0 <= nth i xmax 0.
Proof. exact (@box_sample_inside u k xmin xmax). Qed.

Theorem C05_box_onto k xmin xmax p :
  length xmax = length xmin -> length p = length xmin ->
  (forall i, (i < length xmin)%nat -> nth i xmin 0 <= nth i p 0 < nth i xmax 0) ->
  exists u, (forall j, 0 <= u j < 1) /\ box_sample u k xmin xmax = Ok p.
Proof. exact (@box_sample_onto k xmin xmax p). Qed.

Theorem C05_simplex_inside (u : nat -> R) k nd x :
  (1 <= length x)%nat -> (forall j, 0 <= u j < 1) -> Forall (fun c => length c = nd) x ->
  exists d w, simplex_sample u k nd (length x) x = Ok d /\ length d = nd
    /\ length w = length x /\ convex_weights w
    /\ forall i, (i < nd)%nat -> nth i d 0 = weighted_coord w x i.
Proof. exact (@simplex_sample_inside u k nd x). Qed.

Theorem C05_simplex_onto k nd x w :
  length w = length x -> (1 <= length x)%nat -> Forall (fun c => length c = nd) x ->
  convex_weights w -> 0 < last w 0 ->
  exists u d, (forall j, 0 <= u j < 1) /\ simplex_sample u k nd (length x) x = Ok d
    /\ length d = nd /\ forall i, (i < nd)%nat -> nth i d 0 = weighted_coord w x i.
Proof. exact (@simplex_sample_onto k nd x w). Qed.

Example C05_hypotheses :
  (forall j : nat, 0 <= (fun _ => 1 / 3) j < 1)
  /\ convex_weights [1/2; 1/6; 1/3] /\ 0 < last [1/2; 1/6; 1/3] 0
  /\ Forall (fun c => length c = 3%nat) [[0; 0; 0]; [1; 0; 0]; [0; 2; 5]].
Proof.
  split; [intros; lra|]. split.
  - split; [repeat constructor; lra|]. unfold rsum; cbn; lra.
  - split; [cbn; lra|]. repeat constructor.
Qed.

(** ** C06: picking a cell from a cumulative table *)
Theorem C06_discrete_cdf (u : nat -> R) k (cdf : list R) :
  cdf <> [] -> nondecreasing cdf -> 0 <= nth 0 cdf 0 -> 0 <= u k < 1 ->
  let n := length cdf in
  let total := nth (n - 1) cdf 0 in
  exists i, discrete_sample u k n cdf = Ok i /\ (i < n)%nat
    /\ (total > 0 -> cell_lo cdf i <= u k * total <= cell_hi cdf i)
    /\ (total > 0 -> forall j, (j < n)%nat ->
          cell_lo cdf j < u k * total < cell_hi cdf j -> i = j)
    /\ (total = 0 -> INR i <= INR n * u k < INR i + 1).
Proof. exact (@discrete_sample_ok u k cdf). Qed.

(** The active pool: build the table from the element sizes, then search it. *)
Theorem C06_active_pool (sizes : list R) U :
  sizes <> [] -> Forall (fun a => 0 <= a) sizes -> 0 < rsum sizes -> 0 <= U < 1 ->
  exists c i, make_cdf sizes = Ok c /\ pool_pick U c = Ok i /\ (i < length sizes)%nat
    /\ rsum (firstn i sizes) <= U * rsum sizes <= rsum (firstn (S i) sizes)
    /\ forall j, (j < length sizes)%nat ->
         rsum (firstn j sizes) < U * rsum sizes < rsum (firstn (S j) sizes) -> i = j.
Proof. exact (@pool_pick_ok sizes U). Qed.

Theorem C06_cdf_table (sizes : list R) :
  exists c, make_cdf sizes = Ok c /\ length c = length sizes
    /\ forall i, (i < length sizes)%nat ->
         nth i c 0 = rsum (firstn (S i) sizes) / rsum sizes.
Proof. exact (@make_cdf_ok sizes). Qed.

(** Sampling an empty pool is out of bounds, and so is an empty table. *)
Theorem C06_empty_is_out_of_bounds (u : nat -> R) k U :
  pool_pick U ([] : list R) = UB /\ discrete_sample u k 0 [] = UB.
Proof. split; reflexivity. Qed.

Example C06_hypotheses : nondecreasing [0; 1; 1; 3] /\ 0 < rsum [2; 0; 1].
Proof.
  split; [|unfold rsum; cbn; lra].
  intros i j a b Hij Ha Hb.
  destruct i as [|[|[|[|i]]]]; cbn in Ha; try (destruct i; discriminate);
  destruct j as [|[|[|[|j]]]]; cbn in Hb; try (destruct j; discriminate);
  injection Ha as <-; injection Hb as <-; try lia; lra.
Qed.
(** The search on concrete binary64 numbers. *)
Example C06_run :
  let fl := fun z => FloatInst.of_Z z in
  (c <- make_cdf [fl 2; fl 0; fl 1; fl 5]%Z ;; pool_pick (ndiv (fl 3) (fl 10))%Z c) = Ok 2%nat.
Proof. vm_compute. reflexivity. Qed.

(** ** C55: directions drawn from the unit sphere *)
Theorem C55_unit_sphere (u : nat -> R) k n :
  (forall j, 0 < u j < 1) -> (2 <= n)%nat ->
  exists d, unit_sphere_sample u k n = Ok d /\ length d = n /\ norm2 d = 1.
Proof. exact (@unit_sphere_sample_ok u k n). Qed.

(** The generator can return 0 (C03 gives 0 <= u): then log(0) is taken. *)
Theorem C55_zero_draw_refuted (u : nat -> R) k n :
  u k = 0 -> unit_sphere_sample u k n = UB.
Proof. exact (@unit_sphere_sample_zero_draw u k n). Qed.

Print Assumptions C05_box_inside.
Print Assumptions C05_box_onto.
Print Assumptions C05_simplex_inside.
Print Assumptions C05_simplex_onto.
Print Assumptions C06_discrete_cdf.
Print Assumptions C06_active_pool.
Print Assumptions C06_cdf_table.
Print Assumptions C06_empty_is_out_of_bounds.
Print Assumptions C55_unit_sphere.
Print Assumptions C55_zero_draw_refuted.
