(** Model of src/Meshing/MeshingLinearSolver.cpp 278-619: changing a Cholesky factorization
    (rank-one update, removal and insertion of a row). *)
From Verif Require Import Base Num Sparse.

Section CholUpdate.
  Context {F : Type} `{Num F}.
  Local Open Scope num_scope.

  (** set_sparse_vector_entry(col, val, CJ[row], CV[row]). *)
  Definition mset (C : smat) (row col : nat) (val : F) : res smat :=
    r <- get C row ;; r' <- set_entry col val r ;; set C row r'.

  (** for (j = 0; j < nnz; j++) with the index and the value of every entry of a vector; the
      vectors that are written are never the one that is read. *)
  Fixpoint each_entry {St} (n j : nat) (ix : list nat) (vx : list F) (f : nat -> F -> St -> res St) (s : St) : res St :=
    match n with
    | O => Ok s
    | S m => col <- get ix (2 + j)%nat ;; val <- get vx j ;; s' <- f col val s ;; each_entry m (S j) ix vx f s'
    end.
  (** The loop over a vector that must be allocated, and over one that may be null. *)
  Definition over {St} (v : svec) (f : nat -> F -> St -> res St) (s : St) : res St :=
    match v with None => UB | Some (ix, vx) => nnz <- get ix 1 ;; each_entry nnz 0 ix vx f s end.
  Definition over_if {St} (v : svec) (f : nat -> F -> St -> res St) (s : St) : res St :=
    match v with None => Ok s | Some _ => over v f s end.

  (** 302: while (CJ[irow][pos] <= irow && pos < 2 + nnz) pos++; the entry is read first. *)
  Fixpoint skip_le (fuel : nat) (ix : list nat) (irow nnz pos : nat) : res nat :=
    match fuel with
    | O => Fuel
    | S f => p <- get ix pos ;; if Nat.leb p irow && Nat.ltb pos (2 + nnz) then skip_le f ix irow nnz (pos + 1)%nat else Ok pos
    end.

  (** 303-304, 340-342 and the same for x: the row at a position, num_rows after the last one. *)
  Definition row_at (ix : list nat) (pos num_rows : nat) : res nat :=
    nnz <- get ix 1 ;; if Nat.ltb pos (2 + nnz) then get ix pos else Ok num_rows.

  (** 310-349, the loop over the rows below irow; [i] is the position of irow in x, the flag is
      advance_i. *)
  Fixpoint rotate_rows (fuel num_rows irow i : nat) (c s : F) (pos xpos : nat) (C : smat) (xi : list nat) (xv : list F) (adv : bool)
    : res (smat * (list nat * list F) * bool) :=
    match fuel with
    | O => Fuel
    | S f =>
      r <- get C irow ;;
      match r with
      | None => UB
      | Some (ix, vx) =>
        next_c <- row_at ix pos num_rows ;; next_x <- row_at xi xpos num_rows ;;
        if Nat.ltb next_c num_rows || Nat.ltb next_x num_rows then
          if Nat.leb next_x next_c then
            xj <- get xv (xpos - 2)%nat ;;
            l0 <- (if Nat.eqb next_c next_x then get vx (pos - 2)%nat else Ok n0) ;;
            let l := (l0 + s * xj) / c in
            C1 <- mset C next_x irow l ;; C2 <- mset C1 irow next_x l ;;
            xv' <- set xv (xpos - 2)%nat (c * xj - s * l) ;;
            rotate_rows f num_rows irow i c s (if tiny l then pos else pos + 1)%nat (xpos + 1)%nat C2 xi xv' adv
          else
            l0 <- get vx (pos - 2)%nat ;;
            let l := l0 / c in
            C1 <- mset C next_c irow l ;; C2 <- mset C1 irow next_c l ;;
            let xj := (- s) * l in
            x' <- set_entry next_c xj (Some (xi, xv)) ;;
            match x' with
            | None => UB
            | Some (xi', xv') =>
              rotate_rows f num_rows irow i c s (if tiny l then pos else pos + 1)%nat (if tiny xj then xpos else xpos + 1)%nat
                C2 xi' xv' (adv && negb (tiny xj && Nat.leb next_c i))
            end
        else Ok (C, (xi, xv), adv)
      end
    end.

  (** 284-353, the loop over the entries of x. *)
  Fixpoint rank_loop (fuel num_rows i : nat) (C : smat) (xi : list nat) (xv : list F) : res (smat * (list nat * list F)) :=
    match fuel with
    | O => Fuel
    | S f =>
      nnz_x <- get xi 1 ;;
      if Nat.ltb i nnz_x then
        irow <- get xi (2 + i)%nat ;; x <- get xv i ;;
        r0 <- get C irow ;; diag <- get_entry irow r0 ;;
        let r := nsqrt (diag * diag + x * x) in
        let c := r / diag in let s := x / diag in
        C1 <- mset C irow irow r ;;
        r1 <- get C1 irow ;;
        match r1 with
        | None => UB
        | Some (ix, vx) =>
          nnz <- get ix 1 ;;
          pos <- find_pos (S nnz) irow ix 2 (1 + nnz)%nat ;;
          pos <- skip_le (S (2 + nnz)) ix irow nnz pos ;;
          '(C2, (xi', xv'), adv) <- rotate_rows (S (nnz + nnz_x)) num_rows irow i c s pos (3 + i)%nat C1 xi xv true ;;
          rank_loop f num_rows (if adv : bool then S i else i) C2 xi' xv'
        end
      else Ok (C, (xi, xv))
    end.
  (** 278-356 Cholesky_factorization_rank_one_update. *)
  Definition rank_one (num_rows : nat) (C : smat) (x : svec) : res (smat * svec) :=
    match x with
    | None => Ok (C, None)
    | Some (xi, xv) => '(C', p) <- rank_loop (S num_rows) num_rows 0 C xi xv ;; Ok (C', Some p)
    end.

  (** 358-522 Cholesky_factorization_remove_row; the result has one row less. *)
  Definition remove_last (d : nat) (C : smat) : res smat :=
    for_res d 0 (fun irow (out : smat) =>
      r <- get C irow ;;
      r' <- over r (fun col val w => if Nat.ltb col d then set_entry col val w else Ok w) None ;;
      Ok (out ++ [r'])) [].
  (** 391-409: the columns before and after the removed one. *)
  Definition split_rows (d : nat) (C : smat) : res (smat * smat) :=
    for_res d 0 (fun irow (out : smat * smat) =>
      r <- get C irow ;;
      '(a, b) <- over r (fun col val (w : svec * svec) =>
          if Nat.ltb col d then a <- set_entry col val (fst w) ;; Ok (a, snd w)
          else if Nat.ltb d col then b <- set_entry col val (snd w) ;; Ok (fst w, b)
          else Ok w) (None, None) ;;
      Ok (fst out ++ [a], snd out ++ [b])) ([], []).
  Definition remove_row (num_rows : nat) (C : smat) (d : nat) : res smat :=
    if Nat.eqb d (num_rows - 1) then remove_last d C
    else
      '(S11, S13) <- split_rows d C ;;
      rd <- get C d ;;
      s23 <- over rd (fun col val w => if Nat.ltb d col then set_entry (col - d - 1)%nat val w else Ok w) None ;;
      S33 <- for_res (num_rows - d - 1)%nat (d + 1)%nat (fun irow T =>
               r <- get C irow ;;
               over r (fun col val T =>
                 if Nat.ltb d col then T1 <- mset T (irow - d - 1)%nat (col - d - 1)%nat val ;; mset T1 (col - d - 1)%nat (irow - d - 1)%nat val
                 else Ok T) T) (repeat None (num_rows - d - 1)%nat) ;;
      '(S33, _) <- rank_one (num_rows - d - 1)%nat S33 s23 ;;
      C1 <- for_res d 0 (fun irow T =>
              a <- get S11 irow ;; T1 <- over a (fun col val T => mset T irow col val) T ;;
              b <- get S13 irow ;;
              over_if b (fun col val T => T1 <- mset T irow (col - 1)%nat val ;; mset T1 (col - 1)%nat irow val) T1)
              (repeat None num_rows) ;;
      C2 <- for_res (num_rows - d - 1)%nat (d + 1)%nat (fun irow T =>
              r <- get S33 (irow - d - 1)%nat ;;
              over r (fun col val T => mset T (irow - 1)%nat (col + d)%nat val) T) C1 ;;
      Ok (firstn (num_rows - 1)%nat C2).

  (** 531-558: one step of the solution of L s = a, where s is a sparse vector. *)
  Definition add_step (C : smat) (a : svec) (i : nat) (s : svec) : res svec :=
    ri <- get C i ;;
    sum <- over_if s (fun col x sum => if Nat.ltb col i then val <- get_entry col ri ;; Ok (sum + val * x) else Ok sum) n0 ;;
    b <- get_entry i a ;;
    diag <- get_entry i ri ;;
    set_entry i ((b - sum) / diag) s.
  (** 525-619 Cholesky_factorization_add_row; [None]: the code returns false. *)
  Definition add_row (num_rows : nat) (C : smat) (a : svec) : res (option smat) :=
    s <- for_res num_rows 0 (add_step C a) None ;;
    dot <- over_if s (fun _ x d => Ok (d + x * x)) n0 ;;
    s22 <- get_entry num_rows a ;;
    if (s22 - dot) <? nlit 1 10 then Ok None
    else
      C1 <- over_if s (fun row val T => T1 <- mset T row num_rows val ;; mset T1 num_rows row val) (firstn num_rows C ++ [None]) ;;
      C2 <- mset C1 num_rows num_rows (nsqrt (s22 - dot)) ;;
      Ok (Some C2).
End CholUpdate.
