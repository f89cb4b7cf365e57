(** What it means that the library sees the points a container holds. *)
From Coq Require Import List ZArith QArith Bool Arith.
From Verif Require Import Base ModelBox ModelBuild ModelSearch Spec ModelAdapt.
Import ListNotations.
Local Open Scope Z_scope.

(** The [n] points of [d] coordinates, coordinate j of point i being the scalar
    at address [addr i j]. *)
Definition laid_out {T} {S : Scalar T} (mem : list T) (addr : nat -> nat -> Z) (n d : nat) : space T :=
  Space d (tab n (fun i => tab d (fun j => get mem (Z.to_nat (addr i j))))).

(** The point of [d] coordinates, coordinate j being the scalar at [addr j]. *)
Definition coords_at {T} {S : Scalar T} (mem : list T) (addr : nat -> Z) (d : nat) : list T :=
  tab d (fun j => get mem (Z.to_nat (addr j))).

(** All these addresses are inside the memory. *)
Definition in_memory {T} (mem : list T) (addr : nat -> nat -> Z) (n d : nat) : Prop :=
  forall i j, (i < n)%nat -> (j < d)%nat -> 0 <= addr i j < Z.of_nat (length mem).

(** Consecutive scalars: an array of [d] scalars per point. *)
Definition row_major_addr (data : Z) (d : nat) (i j : nat) : Z :=
  data + Z.of_nat i * Z.of_nat d + Z.of_nat j.

(** The number of coordinates fits into size_t and is not the value that stands
    for "known at run time". *)
Definition dim_ok (d : nat) : Prop := (1 <= d)%nat /\ Z.of_nat d < 2 ^ 64 - 1.

(** A template argument [dim] that says [d], at compile time or at run time
    (std::size_t(-1), the documented value of dynamic_extent). *)
Definition dim_says (dim : Z) (d : nat) : Prop := dim = Z.of_nat d \/ dim = 2 ^ 64 - 1.

(** Eigen: the numbers of rows and columns at compile time agree with those at
    run time. *)
Definition eigen_ok (e : eigen) : Prop :=
  (eg_ct_rows e = -1 \/ eg_ct_rows e = eg_rows e)
  /\ (eg_ct_cols e = -1 \/ eg_ct_cols e = eg_cols e)
  /\ 0 <= eg_rows e /\ 0 <= eg_cols e.

(** Eigen's documentation of strides: the inner stride is the distance of two
    coefficients next to each other in a column of a column-major (in a row of a
    row-major) matrix, the outer stride that of two such columns (rows). *)
Definition eigen_coeff (e : eigen) (r c : Z) : Z :=
  if eg_row_major e then eg_data e + r * eg_outer e + c * eg_inner e
  else eg_data e + c * eg_outer e + r * eg_inner e.

(** The points of a matrix: columns of a column-major matrix, rows of a row-major
    one (PT/eigen3_traits.hpp: "Returns the point at index idx"). *)
Definition eigen_npts (e : eigen) : nat := Z.to_nat (if eg_row_major e then eg_rows e else eg_cols e).
Definition eigen_sdim (e : eigen) : nat := Z.to_nat (if eg_row_major e then eg_cols e else eg_rows e).
Definition eigen_addr (e : eigen) (i j : nat) : Z :=
  if eg_row_major e then eigen_coeff e (Z.of_nat i) (Z.of_nat j) else eigen_coeff e (Z.of_nat j) (Z.of_nat i).

(** The number of coefficients of a vector, and the j-th one. *)
Definition eigen_vec_size (e : eigen) : nat := Z.to_nat (if eg_row_major e then eg_cols e else eg_rows e).
Definition eigen_vec_addr (e : eigen) (j : nat) : Z :=
  if eg_row_major e then eigen_coeff e 0 (Z.of_nat j) else eigen_coeff e (Z.of_nat j) 0.
Definition eigen_vec_ok (e : eigen) : Prop :=
  eigen_ok e /\ eigen_is_vector e = true.

(** OpenCV: scalar k of row r (k counts the channels of all columns). *)
Definition cv_addr (m : cv_mat) (r k : nat) : Z := cv_ptr m + Z.of_nat r * cv_step1 m + Z.of_nat k.
Definition cv_width (m : cv_mat) : nat := Z.to_nat (cv_cols m * cv_channels m).
Definition cv_ok (m : cv_mat) : Prop :=
  0 <= cv_rows m /\ 0 <= cv_cols m /\ 1 <= cv_channels m /\ cv_cols m * cv_channels m <= cv_step1 m
  /\ cv_rows m * cv_step1 m < 2 ^ 64.

(** OpenCV's isContinuous() for several rows: no gap between rows. *)
Definition cv_continuous (m : cv_mat) : Prop := cv_step1 m = cv_cols m * cv_channels m.

(** The distance of the point at addresses [a] to that at addresses [b]. *)
Definition mem_dist {T} {S : Scalar T} (val : T -> Q) (em : exact_metric) (mem : list T) (d : nat)
    (a b : nat -> Z) : Q :=
  dist_of em (map val (coords_at mem a d)) (map val (coords_at mem b d)).
