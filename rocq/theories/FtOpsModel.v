(** Model of the block operations of the fusion tree backend (src/backends/fusion_tree_backend.cpp): linear algebra on FusionTreeData and the
    decompositions.  Data: rows (index of the coupled sector in the codomain, index in the domain), each with a matrix (a vector for diagonal tensors).
    Not modelled: dtypes (but see [cast] of [ft_inner]), devices. *)
From Verif Require Import Util StableSort RowModel GridModel SymModel CatSpec Sums SpaceModel PipeModel TreeModel TensorModel BlockModel SparseModel ConvertModel.
Set Implicit Arguments. Unset Strict Implicit.
Open Scope nat_scope.

(* fusion_tree_backend.cpp:220-243: the loop of iter_common_noncommon_sorted_1d at position (i, j) *)
Fixpoint walk_both_1d (i : nat) (a : list nat) {struct a} : nat -> list nat -> list (option nat * option nat) :=
  match a with
  | [] => fun j b => map (fun k => (None, Some k)) (seq j (length b))
  | x :: a' =>
    fix inner (j : nat) (b : list nat) {struct b} : list (option nat * option nat) :=
      match b with
      | [] => map (fun k => (Some k, None)) (seq i (length a))
      | y :: b' =>
        if x <? y then (Some i, None) :: walk_both_1d (S i) a' j b
        else if y <? x then (None, Some j) :: inner (S j) b'
        else (Some i, Some j) :: walk_both_1d (S i) a' (S j) b'
      end
  end.

Section Ops.
  Variable K : Type.
  Variable o : ops K.
  Notation block := (blk K).
  Notation fdata := (list (nat * nat * blk K)).
  Definition frow (F : fdata) (k : nat) : nat * nat * block := nth k F ((0, 0), Blk [] []).
  Definition col0 (F : fdata) : list nat := map (fun e => fst (fst e)) F.
  Definition col1 (F : fdata) : list nat := map (fun e => snd (fst e)) F.

  (* fusion_tree_backend.cpp:46-72: the constructor sorts the rows lexically (last column first) unless told that they are sorted *)
  Definition ft_make (F : fdata) (is_sorted : bool) : fdata :=
    map (fun e => ((nth 0 (fst e) 0, nth 1 (fst e) 0), snd e)) (make_data (map (fun e => ([fst (fst e); snd (fst e)], snd e)) F) is_sorted).

  (* 669-698; the walk is iter_common_sorted_1d, lines 200-218 (the same code as in abelian.cpp:187-205) *)
  Definition ft_compose (A B : fdata) : fdata :=
    if (0 <? length A) && (0 <? length B) then
      ft_make (map (fun ij => ((fst (fst (frow A (fst ij))), snd (fst (frow B (snd ij)))), bdot o (snd (frow A (fst ij))) (snd (frow B (snd ij)))))
                   (walk_1d 0 (col1 A) 0 (col0 B))) false
    else ft_make [] false.
  (* 717-729 *)
  Definition ft_dagger (A : fdata) : fdata := ft_make (map (fun e => ((snd (fst e), fst (fst e)), bdagger o (snd e))) A) false.
  (* 1299-1315 with zero_data (1155-1178, all_blocks = false): no blocks *)
  Definition ft_mul (is_zero : K -> bool) (a : K) (B : fdata) : fdata :=
    if is_zero a then ft_make [] false else ft_make (map (fun e => (fst e, bmul o a (snd e))) B) true.
  (* 1317-1360 *)
  Definition ft_lincomb (a : K) (V : fdata) (b : K) (W : fdata) : fdata :=
    ft_make (map (fun ij => match ij with
                            | (None, Some j) => (fst (frow W j), bmul o b (snd (frow W j)))
                            | (Some i, None) => (fst (frow V i), bmul o a (snd (frow V i)))
                            | (Some i, Some j) => (fst (frow V i), blincomb o a (snd (frow V i)) b (snd (frow W j)))
                            | (None, None) => frow V 0    (* does not occur *)
                            end) (walk_both_1d 0 (col0 V) 0 (col0 W))) false.
  (* 1180-1192; block_size(c_idx) is multiplicities[c_idx] *)
  Definition ft_eye (P : tprod) : fdata := ft_make (map (fun k => ((k, k), beye o (nth k (tp_mults P) 0))) (seq 0 (length (tp_secs P)))) false.
  (* 1195-1219; the pairs are those of misc.iter_common_sorted_arrays, i.e. SectorArray.iter_common_sorted *)
  Definition ft_from_func (P Q : tprod) (func : nat -> nat -> sector -> block) : fdata :=
    ft_make (map (fun ij => (ij, func (nth (fst ij) (tp_mults P) 0) (nth (snd ij) (tp_mults Q) 0) (nth (fst ij) (tp_secs P) [])))
                 (common_walk true true 0 (tp_secs P) 0 (tp_secs Q))) false.
  (* 1238-1259; [cast]: as_scalar(., a->dtype), the identity or, for a real dtype of the first tensor, the real part (numpy.cpp:338-348) *)
  Definition ft_inner (cast : K -> K) (qdims : list K) (A B : fdata) (do_dagger : bool) : K :=
    fold_left (fun res ij => oadd o res (cast (omul o (nth (nth (fst ij) (col0 A) 0) qdims (o0 o)) (binner o (snd (frow A (fst ij))) (snd (frow B (snd ij))) do_dagger))))
              (walk_1d 0 (col0 A) 0 (if do_dagger then col0 B else col1 B)) (o0 o).
  (* 1262-1279 *)
  Definition ft_trace (qdims : list K) (A : fdata) : K :=
    fold_left (fun res e => oadd o res (omul o (nth (fst (fst e)) qdims (o0 o)) (btrace_full o (snd e)))) A (o0 o).
  (* 1281-1297: the sum under the square root; [nrm]: block_backend.norm *)
  Definition ft_norm_sq (nrm : block -> K) (qdims : list K) (A : fdata) : K :=
    fold_left (fun res e => oadd o res (omul o (omul o (nth (fst (fst e)) qdims (o0 o)) (nrm (snd e))) (nrm (snd e)))) A (o0 o).
  (* 103-119; [small]: norm(block) < eps *)
  Definition ft_discard (small : block -> bool) (F : fdata) : fdata := filter (fun e => negb (small (snd e))) F.

  (** *** diagonal tensors: the blocks are vectors *)
  (* numpy.cpp: np.diag of a vector; np.diagonal of a matrix *)
  Definition bdiag (B : block) : block := let n := nth 0 (bshape B) 0 in bmk [n; n] (fun r => if nth 0 r 0 =? nth 1 r 0 then bat o B [nth 0 r 0] else o0 o).
  Definition bdiagonal (B : block) : block := bmk [Nat.min (nth 0 (bshape B) 0) (nth 1 (bshape B) 0)] (fun r => bat o B [nth 0 r 0; nth 0 r 0]).
  (* the vector with entries func(b_x); func is applied elementwise *)
  Definition bunary (func : K -> K) (B : block) : block := Blk (bshape B) (map func (bdata B)).
  Definition bbinary (func : K -> K -> K) (A B : block) : block := Blk (bshape A) (map (fun xy => func (fst xy) (snd xy)) (combine (bdata A) (bdata B))).
  (* 1042-1050 *)
  Definition diag_to_full (D : fdata) : fdata := ft_make (map (fun e => (fst e, bdiag (snd e))) D) true.
  (* 929-937; [ok]: the test of get_diagonal with a tolerance (numpy.cpp:787-804) *)
  Definition diag_from_full (ok : block -> bool) (A : fdata) : option fdata :=
    if forallb (fun e => ok (snd e)) A then Some (ft_make (map (fun e => (fst e, bdiagonal (snd e))) A) true) else None.
  (* the loops of 520-539, 796-825, 847-865, 1985-2000: running index into the stored blocks, default for the other sectors; [k] sectors from [i] on *)
  Fixpoint fill_from (dflt : nat -> block) (i k : nat) (F : fdata) : list block :=
    match k with
    | 0 => []
    | Datatypes.S k =>
      match F with
      | e :: F' => if fst (fst e) =? i then snd e :: fill_from dflt (i + 1) k F' else dflt i :: fill_from dflt (i + 1) k F
      | [] => dflt i :: fill_from dflt (i + 1) k []
      end
    end.
  Definition fill (dflt : nat -> block) (P : tprod) (F : fdata) : list block := fill_from dflt 0 (length (tp_secs P)) F.
  Definition on_diag (blocks : list block) : fdata := ft_make (map (fun p => ((fst p, fst p), snd p)) (combine (seq 0 (length blocks)) blocks)) false.
  (* 835-870 *)
  Definition diag_unary (func : K -> K) (maps_zero_to_zero : bool) (P : tprod) (A : fdata) : fdata :=
    if maps_zero_to_zero then ft_make (map (fun e => (fst e, bunary func (snd e))) A) false
    else on_diag (map (bunary func) (fill (fun i => bzeros o [nth i (tp_mults P) 0]) P A)).
  (* 769-832 *)
  Definition diag_binary (func : K -> K -> K) (partial_zero_is_zero : bool) (P : tprod) (A B : fdata) : fdata :=
    if partial_zero_is_zero then
      ft_make (map (fun ij => (fst (frow A (fst ij)), bbinary func (snd (frow A (fst ij))) (snd (frow B (snd ij))))) (walk_1d 0 (col0 A) 0 (col0 B))) false
    else
      let z := fun i => bzeros o [nth i (tp_mults P) 0] in
      on_diag (map (fun p => bbinary func (fst p) (snd p)) (combine (fill z P A) (fill z P B))).
  (* 940-952 *)
  Definition diag_trace (qdims : list K) (A : fdata) : K :=
    fold_left (fun res e => oadd o res (omul o (nth (fst (fst e)) qdims (o0 o)) (osum o (bdata (snd e))))) A (o0 o).
  (* 743-756, 759-766; blocks of truth values are described by [test] on the entries *)
  Definition diag_all (test : K -> bool) (P : tprod) (A : fdata) : bool :=
    if length A <? length (tp_secs P) then false else forallb (fun e => forallb test (bdata (snd e))) A.
  Definition diag_any (test : K -> bool) (A : fdata) : bool := existsb (fun e => existsb test (bdata (snd e))) A.
  (* 510-543: codomain = domain = P *)
  Definition act_square (f : block -> block) (P : tprod) (A : fdata) : fdata :=
    on_diag (map f (fill (fun i => bzeros o [nth i (tp_mults P) 0; nth i (tp_mults P) 0]) P A)).
  (* 3521-3568: the branch for one factor; [in_domain]: the leg is the domain, else the codomain *)
  Definition ft_scale_single (in_domain : bool) (A D : fdata) : fdata :=
    if (0 <? length A) && (0 <? length D) then
      ft_make (map (fun ij => (if in_domain then (fst (fst (frow A (fst ij))), fst (fst (frow D (snd ij)))) else (fst (fst (frow D (snd ij))), snd (fst (frow A (fst ij)))),
                               bscale_axis o (snd (frow A (fst ij))) (snd (frow D (snd ij))) (if in_domain then 1 else 0)))
                   (walk_1d 0 (if in_domain then col1 A else col0 A) 0 (col0 D))) true
    else ft_make [] true.

  (** *** decompositions.  [N]: new_co_domain, the product of one new leg (helpers.cpp:614-616).
      The loop runs over the common sectors, [i_new] counts them; [F]: the blocks not yet processed. *)
  Section Decomp.
    Variables P Q N : tprod.
    Definition eye_cols (m k : nat) : block := bslice o (beye o m) [0; 0] [m; k].
    Definition eye_rows (k n : nat) : block := bslice o (beye o n) [0; 0] [k; n].
    (* 2125-2181 *)
    Section QR.
      Variable matrix_qr : block -> block * block.
      Fixpoint qr_loop (pairs : list (nat * nat)) (i_new : nat) (F : fdata) : fdata * fdata :=
        match pairs with
        | [] => ([], [])
        | (i, j) :: rest =>
          match F with
          | e :: F' => if fst (fst e) =? i then
                         let '(q, r) := matrix_qr (snd e) in
                         let '(qs, rs) := qr_loop rest (i_new + 1) F' in (((i, i_new), q) :: qs, ((i_new, j), r) :: rs)
                       else let '(qs, rs) := qr_loop rest (i_new + 1) F in (((i, i_new), eye_cols (nth i (tp_mults P) 0) (nth i_new (tp_mults N) 0)) :: qs, rs)
          | [] => let '(qs, rs) := qr_loop rest (i_new + 1) [] in (((i, i_new), eye_cols (nth i (tp_mults P) 0) (nth i_new (tp_mults N) 0)) :: qs, rs)
          end
        end.
      Definition ft_qr (A : fdata) : fdata * fdata :=
        let '(q, r) := qr_loop (common_walk true true 0 (tp_secs P) 0 (tp_secs Q)) 0 A in (ft_make q false, ft_make r false).
    End QR.
    (* 2070-2122 *)
    Section LQ.
      Variable matrix_lq : block -> block * block.
      Fixpoint lq_loop (pairs : list (nat * nat)) (i_new : nat) (F : fdata) : fdata * fdata :=
        match pairs with
        | [] => ([], [])
        | (i, j) :: rest =>
          match F with
          | e :: F' => if fst (fst e) =? i then
                         let '(l, q) := matrix_lq (snd e) in
                         let '(ls, qs) := lq_loop rest (i_new + 1) F' in (((i, i_new), l) :: ls, ((i_new, j), q) :: qs)
                       else let '(ls, qs) := lq_loop rest (i_new + 1) F in (ls, ((i_new, j), eye_rows (nth i_new (tp_mults N) 0) (nth j (tp_mults Q) 0)) :: qs)
          | [] => let '(ls, qs) := lq_loop rest (i_new + 1) [] in (ls, ((i_new, j), eye_rows (nth i_new (tp_mults N) 0) (nth j (tp_mults Q) 0)) :: qs)
          end
        end.
      Definition ft_lq (A : fdata) : fdata * fdata :=
        let '(l, q) := lq_loop (common_walk true true 0 (tp_secs P) 0 (tp_secs Q)) 0 A in (ft_make l true, ft_make q false).
    End LQ.
    (* 2184-2252 *)
    Section SVD.
      Variable matrix_svd : block -> block * block * block.
      Fixpoint svd_loop (pairs : list (nat * nat)) (i_new : nat) (F : fdata) : fdata * fdata * fdata :=
        match pairs with
        | [] => ([], [], [])
        | (i, j) :: rest =>
          let missing := fun F => let '(us, ss, vs) := svd_loop rest (i_new + 1) F in
                           (((i, i_new), eye_cols (nth i (tp_mults P) 0) (nth i_new (tp_mults N) 0)) :: us, ss,
                            ((i_new, j), eye_rows (nth i_new (tp_mults N) 0) (nth j (tp_mults Q) 0)) :: vs) in
          match F with
          | e :: F' => if fst (fst e) =? i then
                         let '(u, s, v) := matrix_svd (snd e) in
                         let '(us, ss, vs) := svd_loop rest (i_new + 1) F' in (((i, i_new), u) :: us, ((i_new, i_new), s) :: ss, ((i_new, j), v) :: vs)
                       else missing F
          | [] => missing []
          end
        end.
      Definition ft_svd (A : fdata) : fdata * fdata * fdata :=
        let '(u, s, v) := svd_loop (common_walk true true 0 (tp_secs P) 0 (tp_secs Q)) 0 A in (ft_make u false, ft_make s false, ft_make v false).
    End SVD.
    (* 2033-2067: codomain = domain = P; w and v *)
    Section Eigh.
      Variable matrix_eigh : block -> block * block.
      Fixpoint eigh_loop (i k : nat) (F : fdata) : list block * list block :=
        match k with
        | 0 => ([], [])
        | Datatypes.S k =>
          match F with
          | e :: F' => if fst (fst e) =? i then
                         let '(w, v) := matrix_eigh (snd e) in
                         let '(ws, vs) := eigh_loop (i + 1) k F' in (w :: ws, v :: vs)
                       else let '(ws, vs) := eigh_loop (i + 1) k F in (ws, beye o (nth i (tp_mults P) 0) :: vs)
          | [] => let '(ws, vs) := eigh_loop (i + 1) k [] in (ws, beye o (nth i (tp_mults P) 0) :: vs)
          end
        end.
      Definition ft_eigh (A : fdata) : fdata * fdata :=
        let '(ws, vs) := eigh_loop 0 (length (tp_secs P)) A in (ft_make (combine (map fst A) ws) true, on_diag vs).
    End Eigh.
  End Decomp.
End Ops.
(* 3571-3575: position of factor [idx] among the flat legs; the bound of the loop changes while it runs.  [sizes]: number of flat legs of the factors;
   [None]: flat_leg_idcs raises *)
Fixpoint flat_pos_loop (fuel : nat) (sizes : list nat) (i idx : nat) : option nat :=
  match fuel with
  | 0 => None
  | S fuel => if i <? idx then match nth_error sizes i with Some n => flat_pos_loop fuel sizes (i + 1) (idx + n - 1) | None => None end else Some idx
  end.
Definition flat_pos (sizes : list nat) (idx : nat) : option nat := flat_pos_loop (S (nsum sizes + idx)) sizes 0 idx.
