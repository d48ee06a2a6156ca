(** Model of src/Meshing/MeshingLinearSolver.cpp: sparse vectors and the sparse
    Cholesky factorization. *)
From Verif Require Import Base Num.

Section Sparse.
  Context {F : Type} `{Num F}.
  Local Open Scope num_scope.

  (** A sparse vector is a pair of pointers (I, V): I[0] capacity, I[1] number of entries,
      I[2..] row indices; V values.  [None] is the null pointer.  Unused cells hold
      arbitrary values (0 after new[]). *)
  Definition svec : Type := option (list nat * list F).

  (** MeshingLinearSolver.cpp:40 SPARSE_ENTRY_TOL;  fabs(val) < SPARSE_ENTRY_TOL. *)
  Definition tiny (v : F) : bool := nabs v <? nlit 1 12.

  (** MeshingLinearSolver.cpp:743-757 find_entry_position_binary. *)
  Fixpoint find_pos (fuel : nat) (entry : nat) (ix : list nat) (left right : nat) : res nat :=
    match fuel with
    | O => Fuel
    | S f =>
      let ip := Nat.div (Nat.add left right) 2 in
      pivot <- get ix ip ;;
      if Nat.eqb pivot entry then Ok ip
      else if Nat.eqb left right then Ok ip
      else if Nat.ltb pivot entry && Nat.leb (ip + 1)%nat right then find_pos f entry ix (ip + 1)%nat right
      else if Nat.ltb entry pivot && Nat.leb (left + 1)%nat ip then find_pos f entry ix left (ip - 1)%nat
      else Ok ip
    end.

  (** for (j = lo; j < lo + n; j++) a[j] = a[j+1]. *)
  Fixpoint shift_left {A} (a : list A) (lo n : nat) : res (list A) :=
    match n with
    | O => Ok a
    | S m => x <- get a (lo + 1)%nat ;; a' <- set a lo x ;; shift_left a' (lo + 1)%nat m
    end.
  (** for (j = hi; j > hi - n; j--) a[j] = a[j-1]. *)
  Fixpoint shift_right {A} (a : list A) (hi n : nat) : res (list A) :=
    match n with
    | O => Ok a
    | S m => x <- get a (hi - 1)%nat ;; a' <- set a hi x ;; shift_right a' (hi - 1)%nat m
    end.
  (** while (I[pos] > row && pos > 2) pos--. *)
  Fixpoint step_back (fuel : nat) (ix : list nat) (row pos : nat) : res nat :=
    match fuel with
    | O => Fuel
    | S f => p <- get ix pos ;; if Nat.ltb row p && Nat.ltb 2 pos then step_back f ix row (pos - 1)%nat else Ok pos
    end.

  (** MeshingLinearSolver.cpp:654-727 set_sparse_vector_entry.  The loops that move
      index and value together are written as one loop per array. *)
  Definition set_entry (row : nat) (val : F) (v : svec) : res svec :=
    match v with
    | None => if tiny val then Ok None
              else Ok (Some (10%nat :: 1%nat :: row :: repeat 0%nat 9, val :: repeat n0 9))
    | Some (ix, vx) =>
      num <- get ix 1 ;;
      if Nat.eqb num 0 then
        if tiny val then Ok v
        else I1 <- set ix 1 1%nat ;; I2 <- set I1 2 row ;; V1 <- set vx 0 val ;; Ok (Some (I2, V1))
      else
        cap <- get ix 0 ;;
        pos <- find_pos (S num) row ix 2 (1 + num)%nat ;;
        p <- get ix pos ;;
        if Nat.eqb p row then
          if tiny val then
            I1 <- shift_left ix pos (1 + num - pos)%nat ;;
            V1 <- shift_left vx (pos - 2)%nat (1 + num - pos)%nat ;;
            I2 <- set I1 1 (num - 1)%nat ;;
            Ok (Some (I2, V1))
          else V1 <- set vx (pos - 2)%nat val ;; Ok (Some (ix, V1))
        else if tiny val then Ok v
        else
          let grown := Nat.eqb num cap in
          let I0 := if grown then (cap * 2)%nat :: num :: firstn num (skipn 2 ix) ++ repeat 0%nat (cap * 2 - num)%nat else ix in
          let V0 := if grown then firstn num vx ++ repeat n0 (cap * 2 - num)%nat else vx in
          pos <- step_back (S pos) I0 row pos ;;
          p <- get I0 pos ;;
          let pos := if Nat.ltb p row then (pos + 1)%nat else pos in
          I1 <- shift_right I0 (2 + num)%nat (2 + num - pos)%nat ;;
          V1 <- shift_right V0 num (2 + num - pos)%nat ;;
          I2 <- set I1 pos row ;;
          V2 <- set V1 (pos - 2)%nat val ;;
          I3 <- set I2 1 (num + 1)%nat ;;
          Ok (Some (I3, V2))
    end.

  (** MeshingLinearSolver.cpp:729-741 get_sparse_vector_entry; a null I is read. *)
  Definition get_entry (row : nat) (v : svec) : res F :=
    match v with
    | None => UB
    | Some (ix, vx) =>
      num <- get ix 1 ;;
      if Nat.eqb num 0 then Ok n0
      else
        pos <- find_pos (S num) row ix 2 (1 + num)%nat ;;
        p <- get ix pos ;;
        if Nat.eqb p row then get vx (pos - 2)%nat else Ok n0
    end.

  (** MeshingLinearSolver.cpp:759-793 get_dot_product of two sparse vectors: the loop
      over the entries of the first one ([flip]: factors exchanged). *)
  Fixpoint dot_loop (n i : nat) (I1 : list nat) (V1 : list F) (other : svec) (flip : bool) (lo hi : nat) (dot : F) : res F :=
    match n with
    | O => Ok dot
    | S m =>
      row <- get I1 (2 + i)%nat ;;
      if Nat.ltb row lo then dot_loop m (S i) I1 V1 other flip lo hi dot
      else if Nat.ltb hi row then Ok dot
      else
        val <- get_entry row other ;;
        a <- get V1 i ;;
        dot_loop m (S i) I1 V1 other flip lo hi (dot + (if flip then val * a else a * val))
    end.
  Definition dot_sparse (v1 v2 : svec) (lo hi : nat) : res F :=
    match v1, v2 with
    | Some (I1, V1), Some (I2, V2) =>
      a <- get I1 1 ;; b <- get I2 1 ;;
      if Nat.ltb a b then dot_loop a 0 I1 V1 v2 false lo hi n0
      else dot_loop b 0 I2 V2 v1 true lo hi n0
    | _, _ => Ok n0
    end.
  (** MeshingLinearSolver.cpp:795-812 get_dot_product of a sparse and a dense vector. *)
  Fixpoint dense_loop (n i : nat) (I1 : list nat) (V1 x : list F) (lo hi : nat) (dot : F) : res F :=
    match n with
    | O => Ok dot
    | S m =>
      row <- get I1 (2 + i)%nat ;;
      if Nat.ltb row lo then dense_loop m (S i) I1 V1 x lo hi dot
      else if Nat.ltb hi row then Ok dot
      else a <- get V1 i ;; b <- get x row ;; dense_loop m (S i) I1 V1 x lo hi (dot + a * b)
    end.
  Definition dot_dense (v : svec) (x : list F) (lo hi : nat) : res F :=
    match v with
    | None => Ok n0
    | Some (ix, vx) => a <- get ix 1 ;; dense_loop a 0 ix vx x lo hi n0
    end.

  (** A sparse matrix: one sparse vector per row. *)
  Definition smat := list svec.

  (** MeshingLinearSolver.cpp:217-239, the main loops of Cholesky_factorization; [None]:
      the code returns false. *)
  Definition chol_row (i : nat) (lii : F) (j : nat) (A : smat) : res smat :=
    ri <- get A i ;; rj <- get A j ;;
    dot <- (if Nat.ltb 0 i then dot_sparse ri rj 0 (i - 1)%nat else Ok n0) ;;
    aji <- get_entry i rj ;;
    rj' <- set_entry i ((aji - dot) / lii) rj ;;
    set A j rj'.
  Fixpoint chol_loop (n i num_rows : nat) (A : smat) : res (option smat) :=
    match n with
    | O => Ok (Some A)
    | S m =>
      ri <- get A i ;;
      dot <- (if Nat.ltb 0 i then dot_sparse ri ri 0 (i - 1)%nat else Ok n0) ;;
      aii <- get_entry i ri ;;
      if (aii - dot) <? nlit 1 10 then Ok None
      else
        let lii := nsqrt (aii - dot) in
        ri' <- set_entry i lii ri ;;
        A1 <- set A i ri' ;;
        A2 <- for_res (num_rows - (i + 1))%nat (i + 1)%nat (chol_row i lii) A1 ;;
        chol_loop m (S i) num_rows A2
    end.

  (** MeshingLinearSolver.cpp:241-257, entries above the diagonal are removed: each
      one is overwritten by the last entry until none is left at that place. *)
  Fixpoint trim_at (fuel : nat) (irow i nnz : nat) (ix : list nat) (vx : list F) : res (nat * (list nat * list F)) :=
    match fuel with
    | O => Fuel
    | S f =>
      col <- get ix (2 + i)%nat ;;
      if Nat.ltb irow col && Nat.ltb i nnz then
        c <- get ix (2 + (nnz - 1))%nat ;; I1 <- set ix (2 + i)%nat c ;;
        x <- get vx (nnz - 1)%nat ;; V1 <- set vx i x ;;
        trim_at f irow i (nnz - 1)%nat I1 V1
      else Ok (nnz, (ix, vx))
    end.
  Fixpoint trim_loop (fuel : nat) (irow i nnz : nat) (ix : list nat) (vx : list F) : res (nat * (list nat * list F)) :=
    match fuel with
    | O => Fuel
    | S f =>
      if Nat.ltb i nnz then
        '(nnz1, (I1, V1)) <- trim_at (S nnz) irow i nnz ix vx ;;
        trim_loop f irow (S i) nnz1 I1 V1
      else Ok (nnz, (ix, vx))
    end.
  Definition trim_row (irow : nat) (A : smat) : res smat :=
    r <- get A irow ;;
    match r with
    | None => UB
    | Some (ix, vx) =>
      nnz <- get ix 1 ;;
      '(n, (I1, V1)) <- trim_loop (S nnz) irow 0 nnz ix vx ;;
      I2 <- set I1 1 n ;;
      set A irow (Some (I2, V1))
    end.

  (** MeshingLinearSolver.cpp:259-272, the transposed factor is stored above. *)
  Fixpoint mirror_entries (n i irow : nat) (ix : list nat) (vx : list F) (A : smat) : res smat :=
    match n with
    | O => Ok A
    | S m =>
      col <- get ix (2 + i)%nat ;; val <- get vx i ;;
      A1 <- (if Nat.ltb col irow then r <- get A col ;; r' <- set_entry irow val r ;; set A col r' else Ok A) ;;
      mirror_entries m (S i) irow ix vx A1
    end.
  Definition mirror_row (irow : nat) (A : smat) : res smat :=
    r <- get A irow ;;
    match r with
    | None => UB
    | Some (ix, vx) => nnz <- get ix 1 ;; mirror_entries nnz 0 irow ix vx A
    end.

  (** MeshingLinearSolver.cpp:213-276 Cholesky_factorization. *)
  Definition cholesky (num_rows : nat) (A : smat) : res (option smat) :=
    r <- chol_loop num_rows 0 num_rows A ;;
    match r with
    | None => Ok None
    | Some A1 =>
      A2 <- for_res num_rows 0 trim_row A1 ;;
      A3 <- for_res (num_rows - 1)%nat 1 mirror_row A2 ;;
      Ok (Some A3)
    end.

  (** MeshingLinearSolver.cpp:622-651 Cholesky_Solver; [x] is the array of the caller.
      With num_rows = 0 the row index underflows. *)
  Definition fwd_step (C : smat) (b : list F) (i : nat) (y : list F) : res (list F) :=
    r <- get C i ;;
    dot <- (if Nat.ltb 0 i then dot_dense r y 0 (i - 1)%nat else Ok n0) ;;
    diag <- get_entry i r ;;
    bi <- get b i ;;
    set y i ((bi - dot) / diag).
  Fixpoint back_loop (n : nat) (num_rows : nat) (C : smat) (y x : list F) : res (list F) :=
    match n with
    | O => Ok x
    | S i =>
      r <- get C i ;;
      dot <- dot_dense r x (i + 1)%nat (num_rows - 1)%nat ;;
      diag <- get_entry i r ;;
      yi <- get y i ;;
      x1 <- set x i ((yi - dot) / diag) ;;
      back_loop i num_rows C y x1
    end.
  Definition cholesky_solve (num_rows : nat) (C : smat) (b x : list F) : res (list F) :=
    if Nat.eqb num_rows 0 then UB
    else
      y <- for_res num_rows 0 (fwd_step C b) (repeat n0 num_rows) ;;
      back_loop num_rows num_rows C y x.
End Sparse.
