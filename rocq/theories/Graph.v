(** Model of the point graph of MeshingSmartTree (MeshingSmartTree.cpp:297-386,
    MeshingSmartTree.h:73-83).  A heap block is the list of its cells, [None] a cell
    that was never written; a null pointer is [None].  The number of points and the
    capacity of the tree are members that other methods change. *)
From Verif Require Import Base.

Definition block := list (option nat).

(** Reading a cell that was never written is undefined. *)
Definition rd (b : block) (i : nat) : res nat :=
  v <- get b i ;; match v with Some a => Ok a | None => UB end.

Record pgraph := PG {
  pg_n : nat;                                  (* _num_points *)
  pg_cap : nat;                                (* _capacity *)
  pg_g : option (list (option block))          (* _graph, of _graph_cap cells *)
}.

(** MeshingSmartTree.cpp:379-383: is jpoint among the [m] entries from 2+ied on? *)
Fixpoint scan_edges (m : nat) (b : block) (ied jp : nat) : res bool :=
  match m with
  | O => Ok false
  | S m' => v <- rd b (2 + ied) ;; if v =? jp then Ok true else scan_edges m' b (S ied) jp
  end.

(** MeshingSmartTree.cpp:372-386 graph_connected. *)
Definition graph_connected (s : pgraph) (ip jp : nat) : res bool :=
  match pg_g s with
  | None => Ok false
  | Some g =>
    if length g <=? ip then Ok false
    else c <- get g ip ;;
         match c with
         | None => Ok false
         | Some b => _ <- rd b 0 ;; ne <- rd b 1 ;; scan_edges ne b 0 jp
         end
  end.

(** MeshingSmartTree.cpp:362 copy of the entries into the larger block. *)
Definition copy_edges (n : nat) (src dst : block) : res block :=
  for_res n 0 (fun i d => v <- rd src (2 + i) ;; set d (2 + i) (Some v)) dst.

(** MeshingSmartTree.cpp:329-345: allocate or extend the array of blocks. *)
Definition ensure_graph (s : pgraph) : list (option block) :=
  match pg_g s with
  | None => repeat None (pg_cap s)
  | Some g => if length g <? pg_cap s then g ++ repeat None (pg_cap s - length g) else g
  end.

(** MeshingSmartTree.cpp:353-368: append an entry, double the block when full. *)
Definition append_edge (b : block) (jp : nat) : res block :=
  cap <- rd b 0 ;; ne <- rd b 1 ;;
  b1 <- set b (2 + ne) (Some jp) ;;
  b2 <- set b1 1 (Some (ne + 1)) ;;
  if ne + 1 =? cap then
    e <- copy_edges (ne + 1) b2 (repeat None (2 * cap + 2)) ;;
    e1 <- set e 0 (Some (2 * cap)) ;;
    set e1 1 (Some (ne + 1))
  else Ok b2.

(** MeshingSmartTree.cpp:323-370 graph_connect; the code returned is 1 when nothing
    is added. *)
Definition graph_connect (s : pgraph) (ip jp : nat) : res (nat * pgraph) :=
  if pg_n s <=? ip then Ok (1, s)
  else
    let g := ensure_graph s in
    c <- get g ip ;;
    g1 <- (match c with
           | None => set g ip (Some (Some 10 :: Some 0 :: repeat None 10))
           | Some _ => Ok g
           end) ;;
    let s1 := PG (pg_n s) (pg_cap s) (Some g1) in
    f <- graph_connected s1 ip jp ;;
    if (f : bool) then Ok (1, s1)
    else
      c1 <- get g1 ip ;;
      match c1 with
      | None => UB
      | Some b => b' <- append_edge b jp ;; g2 <- set g1 ip (Some b') ;;
                  Ok (0, PG (pg_n s) (pg_cap s) (Some g2))
      end.

(** MeshingSmartTree.cpp:316-321 graph_connect_nodes. *)
Definition graph_connect_nodes (s : pgraph) (ip jp : nat) : res pgraph :=
  '(_, s1) <- graph_connect s ip jp ;;
  '(_, s2) <- graph_connect s1 jp ip ;;
  Ok s2.

(** MeshingSmartTree.cpp:297-314 reset_graph. *)
Definition reset_graph (s : pgraph) : pgraph :=
  if pg_n s =? 0 then s else PG (pg_n s) (pg_cap s) None.

(** MeshingSmartTree.h:75 graph_get_neighbors, then the count and the entries are
    read by the caller (e.g. MeshingVoroCrustSampler.cpp:1737-1744, 2248-2256): null
    is [None]. *)
Fixpoint read_entries (m : nat) (b : block) (i : nat) : res (list nat) :=
  match m with
  | O => Ok []
  | S m' => v <- rd b (2 + i) ;; r <- read_entries m' b (S i) ;; Ok (v :: r)
  end.
Definition graph_neighbors (s : pgraph) (ip : nat) : res (option (list nat)) :=
  match pg_g s with
  | None => UB
  | Some g => c <- get g ip ;;
              match c with
              | None => Ok None
              | Some b => ne <- rd b 1 ;; l <- read_entries ne b 0 ;; Ok (Some l)
              end
  end.

(** What can happen to the graph during the life of a tree: edges are added in one
    or both directions, points are inserted (the number of points and the capacity
    grow), the graph is cleared. *)
Inductive gop :=
| GConnect (i j : nat)
| GConnectNodes (i j : nat)
| GGrow (n cap : nat)
| GReset.
Definition gstep (s : pgraph) (o : gop) : res pgraph :=
  match o with
  | GConnect i j => '(_, s1) <- graph_connect s i j ;; Ok s1
  | GConnectNodes i j => graph_connect_nodes s i j
  | GGrow n cap => Ok (PG n cap (pg_g s))
  | GReset => Ok (reset_graph s)
  end.
Fixpoint grun (s : pgraph) (l : list gop) : res pgraph :=
  match l with
  | [] => Ok s
  | o :: t => s1 <- gstep s o ;; grun s1 t
  end.
Definition g_new (n cap : nat) : pgraph := PG n cap None.
