(** Model of the adaptors: how the library reads points out of user containers.

    Memory is a list of scalars, a pointer is an offset into it (a Z, counted in
    scalars).  Extents and sizes are Z, as size_t.

    Citations are relative to /repo.  [PT] abbreviates src/pico_tree/pico_tree,
    [UN] examples/pico_understory/pico_understory, [TS]
    examples/pico_toolshed/pico_toolshed. *)
From Coq Require Import List ZArith Bool Arith.
From Verif Require Import Base ModelBox ModelBuild ModelSearch.
Import ListNotations.
Local Open Scope Z_scope.

(** PT/core.hpp:19: dynamic_extent. *)
Definition dynamic_extent : Z := 2 ^ 64 - 1.

(** Multiplication of two size_t. *)
Definition size_mul (a b : Z) : Z := (a * b) mod 2 ^ 64.

(** Reading the [n] scalars at [p, p + n), as the loops over coordinates do
    (PT/internal/box.hpp:86-95, PT/metric.hpp:36-51 and others).  Reading
    outside of the memory is undefined. *)
Definition read_range {T} (mem : list T) (p n : Z) : res (list T) :=
  if (0 <=? p) && (0 <=? n) && (p + n <=? Z.of_nat (length mem))
  then Ok (firstn (Z.to_nat n) (skipn (Z.to_nat p) mem))
  else Ub UbIndex.

(** PT/space_traits.hpp:8-12 and PT/point_traits.hpp: what the traits of a
    space and of a point provide; [st_point i] is the data pointer of point_at(i). *)
Record space_traits : Type := SpaceTraits {
  st_dim : Z;
  st_sdim : Z;
  st_size : Z;
  st_point : Z -> Z
}.
Record point_traits : Type := PointTraits { pt_dim : Z; pt_size : Z; pt_data : Z }.

(** PT/internal/space_wrapper.hpp:44-50 and PT/internal/point_wrapper.hpp:39-45:
    a dimension known at compile time is used, else the run-time one. *)
Definition known_or (dim runtime : Z) : Z := if dim =? dynamic_extent then runtime else dim.

(** PT/internal/space_wrapper.hpp:29-32, 42: all points of a space, in order.
    Simplification: the library reads the coordinates again in every query; here
    they are read once and the container is assumed not to change. *)
Fixpoint view_points {T} (mem : list T) (t : space_traits) (i : Z) (n : nat) : res (list (list T)) :=
  match n with
  | O => Ok []
  | S n' =>
      do p <- read_range mem (st_point t i) (known_or (st_dim t) (st_sdim t));
      do r <- view_points mem t (i + 1) n';
      Ok (p :: r)
  end.
Definition view_space {T} (mem : list T) (t : space_traits) : res (space T) :=
  do pts <- view_points mem t 0 (Z.to_nat (st_size t));
  Ok (Space (Z.to_nat (known_or (st_dim t) (st_sdim t))) pts).

(** PT/internal/point_wrapper.hpp:30-36: the coordinates of a query point. *)
Definition view_point {T} (mem : list T) (p : point_traits) : res (list T) :=
  read_range mem (pt_data p) (known_or (pt_dim p) (pt_size p)).

(** * Maps *)

(** PT/map.hpp:12-27: map_storage; a fixed extent ignores the size. *)
Record map_storage : Type := MapStorage { ms_data : Z; ms_size : Z }.
Definition map_storage_make (extent data size : Z) : map_storage :=
  if extent =? dynamic_extent then MapStorage data size else MapStorage data extent.

(** PT/map.hpp:43-52: the constructors of map and so of point_map (103). *)
Definition map_make (extent data : Z) : map_storage := map_storage_make extent data extent.
Definition map_make_size (extent data size : Z) : map_storage := map_storage_make extent data size.
Definition map_make_range (extent begin_ end_ : Z) : map_storage :=
  map_storage_make extent begin_ (end_ - begin_).

(** PT/map_traits.hpp:12-24: point_traits of a point_map<Scalar_, Dim_>. *)
Definition point_map_traits (dim : Z) (m : map_storage) : point_traits :=
  PointTraits dim (ms_size m) (ms_data m).

(** PT/map.hpp:66-84: space_map_matrix_storage. *)
Record space_map : Type := SpaceMap { sm_data : Z; sm_size : Z; sm_sdim : Z }.
Definition space_map_storage (dim data size sdim : Z) : space_map :=
  if dim =? dynamic_extent then SpaceMap data size sdim else SpaceMap data size dim.

(** PT/map.hpp:146-151: the constructors of space_map<point_map<Scalar_, Dim_>>. *)
Definition space_map_make (dim data size : Z) : space_map := space_map_storage dim data size dim.
Definition space_map_make_sdim (dim data size sdim : Z) : space_map := space_map_storage dim data size sdim.

(** PT/map.hpp:159-161: data(i). *)
Definition space_map_data (m : space_map) (i : Z) : Z := sm_data m + size_mul i (sm_sdim m).

(** PT/map.hpp:153-155: operator[]. *)
Definition space_map_point (dim : Z) (m : space_map) (i : Z) : map_storage :=
  map_make_size dim (space_map_data m i) (sm_sdim m).

(** PT/map_traits.hpp:28-44: space_traits of a space_map<point_map<Scalar_, Dim_>>. *)
Definition space_map_traits (dim : Z) (m : space_map) : space_traits :=
  SpaceTraits dim (sm_sdim m) (sm_size m) (fun i => ms_data (space_map_point dim m i)).

(** PT/vector_traits.hpp:15-43 (std::vector<Point_>) and PT/map.hpp:109-133
    with PT/map_traits.hpp:28-44 (space_map<Point_>): [size] point objects in a
    row, each [stride] scalars long, with its coordinates, [dim] of them, at
    offset [member].  Point types: PT/array_traits.hpp:11-44 (Scalar_[Dim_],
    std::array), PT/opencv_traits.hpp:21-90 (cv::Point_, cv::Point3_, cv::Vec),
    TS/point.hpp:61-74: all with [stride = dim] and [member = 0].
    Simplification: the size of an object is a whole number of scalars. *)
Definition array_traits (dim data size stride member : Z) : space_traits :=
  SpaceTraits dim dim size (fun i => data + i * stride + member).

(** UN/internal/matrix_space.hpp:10-29, 38-41 and its traits
    (UN/internal/matrix_space_traits.hpp:8-25): owns its scalars. *)
Definition matrix_space_elems (dim size sdim : Z) : Z := size_mul size (known_or dim sdim).
Definition matrix_space_traits (dim size sdim : Z) : space_traits :=
  SpaceTraits dim (known_or dim sdim) size (fun i => size_mul i (known_or dim sdim)).

(** TS/dynamic_space.hpp:10-71: the traits of the wrapped space, but with a
    dimension known at run time only. *)
Definition dynamic_space_traits (t : space_traits) : space_traits :=
  SpaceTraits dynamic_extent (st_sdim t) (st_size t) (st_point t).

(** PT/space_traits.hpp:14-27: a std::reference_wrapper has the traits of what
    it refers to. *)
Definition reference_traits (t : space_traits) : space_traits := t.

(** * Eigen *)

(** What the adaptor uses of an Eigen::Matrix, Eigen::Map or Eigen::Block:
    storage order, compile-time numbers of rows and columns (Eigen::Dynamic is
    -1), run-time numbers, first coefficient, and the two strides that
    Eigen::Map and Eigen::Block may have.  Not code of /repo. *)
Record eigen : Type := EigenExpr {
  eg_row_major : bool;
  eg_ct_rows : Z;
  eg_ct_cols : Z;
  eg_rows : Z;
  eg_cols : Z;
  eg_data : Z;
  eg_inner : Z;
  eg_outer : Z
}.

(** PT/eigen3_traits.hpp:44-46: eigen_dim_to_pico_dim. *)
Definition eigen_dim (d : Z) : Z := if d =? -1 then dynamic_extent else d.

(** PT/eigen3_traits.hpp:34-42: the static_assert of eigen_vector_dim. *)
Definition eigen_is_vector (e : eigen) : bool :=
  (negb (eg_row_major e) && (eg_ct_cols e =? 1)) || (eg_row_major e && (eg_ct_rows e =? 1)).
Definition eigen_vector_dim (e : eigen) : Z := if eg_row_major e then eg_ct_cols e else eg_ct_rows e.

(** PT/eigen3_traits.hpp:52-75: eigen_point_traits; data() is the first
    coefficient, size() is rows() * cols(). *)
Definition eigen_point_traits (e : eigen) : point_traits :=
  PointTraits (eigen_dim (eigen_vector_dim e)) (eg_rows e * eg_cols e) (eg_data e).

(** Eigen's col(i) of a column-major and row(i) of a row-major expression: an
    inner panel with the inner stride of the expression (PT/eigen3_traits.hpp:
    104-109, 136-141 use them; Eigen itself is not part of /repo). *)
Definition eigen_panel (e : eigen) (i : Z) : eigen :=
  if eg_row_major e
  then EigenExpr true 1 (eg_ct_cols e) 1 (eg_cols e) (eg_data e + i * eg_outer e) (eg_inner e) (eg_outer e)
  else EigenExpr false (eg_ct_rows e) 1 (eg_rows e) 1 (eg_data e + i * eg_outer e) (eg_inner e) (eg_outer e).

(** Eigen's row(i) of a column-major and col(i) of a row-major expression: a
    vector whose coefficients are one outer stride apart.  Eigen turns the
    storage order of such a vector around. *)
Definition eigen_cross (e : eigen) (i : Z) : eigen :=
  if eg_row_major e
  then EigenExpr false (eg_ct_rows e) 1 (eg_rows e) 1 (eg_data e + i * eg_inner e) (eg_outer e) (eg_inner e)
  else EigenExpr true 1 (eg_ct_cols e) 1 (eg_cols e) (eg_data e + i * eg_inner e) (eg_outer e) (eg_inner e).

(** PT/eigen3_traits.hpp:92-155: eigen_traits_impl. *)
Definition eigen_space_traits (e : eigen) : space_traits :=
  if eg_row_major e
  then SpaceTraits (eigen_dim (eg_ct_cols e)) (eg_cols e) (eg_rows e)
         (fun i => pt_data (eigen_point_traits (eigen_panel e i)))
  else SpaceTraits (eigen_dim (eg_ct_rows e)) (eg_rows e) (eg_cols e)
         (fun i => pt_data (eigen_point_traits (eigen_panel e i))).

(** An Eigen::Matrix<Scalar_, R, C> (and an Eigen::Map of one with the default
    stride) of [rows] by [cols], at [data].  Options [row_major]: the template
    argument Options_ when given; a matrix with one row at compile time (and not
    one column) is always row-major and one with one column column-major, which
    is Eigen's default for Options_. *)
Definition eigen_matrix (row_major : bool) (ct_rows ct_cols rows cols data : Z) : eigen :=
  let rm := if (ct_rows =? 1) && negb (ct_cols =? 1) then true
            else if (ct_cols =? 1) && negb (ct_rows =? 1) then false else row_major in
  EigenExpr rm ct_rows ct_cols rows cols data 1 (if rm then cols else rows).

(** * OpenCV *)

(** What the adaptor uses of a two dimensional cv::Mat: rows, columns, channels,
    ptr() and the distance of two rows in scalars, step1().  Not code of /repo. *)
Record cv_mat : Type := CvMat {
  cv_rows : Z;
  cv_cols : Z;
  cv_channels : Z;
  cv_ptr : Z;
  cv_step1 : Z
}.

(** PT/opencv_traits.hpp:94-126 and 130-157: opencv_mat_map and its traits. *)
Definition opencv_mat_map (dim : Z) (m : cv_mat) : space_map :=
  space_map_make_sdim dim (cv_ptr m) (cv_rows m) (cv_step1 m).
Definition opencv_traits (dim : Z) (m : cv_mat) : space_traits := space_map_traits dim (opencv_mat_map dim m).

(** * Trees over containers *)

(** PT/kd_tree.hpp:76-88 and 125-129 with the space and the query in memory. *)
Section Trees.
Context {T : Type} {S : Scalar T}.

Definition kd_tree_over (alg : std_algos) (it : index_type) (m : metric T) (fuel : nat) (mem : list T)
    (t : space_traits) (stop : stop_condition) (bnds : start_bounds T) (ru : rule) : res (kd_tree T) :=
  do sp <- view_space mem t;
  kd_tree_make alg it m fuel sp stop bnds ru.

Definition search_nn_at (mem : list T) (t : kd_tree T) (p : point_traits) (nn : neighbor T) : res (neighbor T) :=
  do q <- view_point mem p;
  search_nn t q nn.

Definition search_knn_at (mem : list T) (t : kd_tree T) (p : point_traits) (k : nat) (knn : list (neighbor T))
  : res (list (neighbor T)) :=
  do q <- view_point mem p;
  search_knn t q k knn.
End Trees.
