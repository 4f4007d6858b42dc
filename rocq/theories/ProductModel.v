(** Products of symmetry factors: class Symmetry (src/symmetries/symmetry.cpp). *)
From Verif Require Import Util RowModel SymModel CatSpec.
Set Implicit Arguments.
Unset Strict Implicit.
Open Scope nat_scope.

(** include/cyten/symmetries/styles.h: FusionStyle single = 0, multiple_unique = 10,
    general = 20; BraidingStyle bosonic = 0 < fermionic = 10 < anyonic = 20 *)
Notation style_single := 0.
Notation style_multiple_unique := 10.
Notation style_general := 20.

(** A factor: its fusion rules, its declared fusion style, its braiding style, its finite list of
    sectors (if finite), its F and R symbol and its quantum dimension.  Scalars in [K].
    The Frobenius-Schur indicator is a derived quantity (base_symmetry.cpp:359-372) and only
    carried along for the statements. *)
Record factor (K : Type) := Factor {
  fac_sym : symmetry;
  fac_style : nat;
  fac_braiding : nat;
  fac_all : option (list sector);
  fac_F : Fsym K;
  fac_R : Rsym K;
  fac_fs : sector -> K;
  fac_qd : sector -> K;
}.

Definition nosym : symmetry :=
  Sym 0 (fun _ => false) [] (fun _ _ => []) (fun _ _ _ => 0) (fun a => a) (fun _ => 0).

(** A numeric array of rank at most 4 with its shape: FusionSymbol (fusion_symbol.h); only the
    first [rank] extents matter, the others are 1. *)
Record farray (K : Type) := FArr {
  fsh : nat * nat * nat * nat;
  fat : nat -> nat -> nat -> nat -> K;
}.

Section Product.
  Variable K : Type.
  Variable o : ops K.
  Notation factor := (factor K).
  Definition nofac : factor :=
    Factor nosym 0 0 None (fun _ _ _ _ _ _ _ _ _ _ => o0 o) (fun _ _ _ _ => o0 o)
      (fun _ => o0 o) (fun _ => o0 o).
  Notation facs := (list factor).
  Notation fsym fs i := (fac_sym (nth i fs nofac)).

  (** symmetry.cpp:115-119: sector_slices[i] *)
  Definition sector_slice (fs : facs) (i : nat) : nat :=
    fold_left (fun acc f => acc + sym_len (fac_sym f)) (firstn i fs) 0.
  (** symmetry.cpp:57-75: total sector length (ValueError if larger than max_sector_ind_len = 7,
      see [product_ok]) *)
  Definition total_len (fs : facs) : nat := sector_slice fs (length fs).

  (** symmetry.cpp:157-163 *)
  Definition factor_sector (fs : facs) (a : sector) (i : nat) : sector :=
    firstn (sector_slice fs (i + 1) - sector_slice fs i) (skipn (sector_slice fs i) a).

  (** symmetry.cpp:27-55 *)
  Definition max_fusion_style (fs : facs) : nat :=
    match fs with
    | [] => style_single
    | f :: rest => fold_left (fun s g => if s <? fac_style g then fac_style g else s) rest (fac_style f)
    end.
  Definition max_braiding_style (fs : facs) : nat :=
    match fs with
    | [] => 0
    | f :: rest => fold_left (fun s g => if s <? fac_braiding g then fac_braiding g else s) rest (fac_braiding f)
    end.

  (** the constructor's checks: base_symmetry.cpp:31-33 rejects sector length 0, symmetry.cpp:64-66
      rejects more than 7 components; both are ValueErrors *)
  Definition product_ok (fs : facs) : bool := (0 <? total_len fs) && (total_len fs <=? 7).

  (** symmetry.cpp:57-75 *)
  Definition product_trivial (fs : facs) : sector := flat_map (fun f => sym_trivial (fac_sym f)) fs.

  (** symmetry.cpp:244-256 *)
  Definition product_valid (fs : facs) (a : sector) : bool :=
    (length a =? total_len fs) &&
    forallb (fun i => sym_valid (fsym fs i) (factor_sector fs a i)) (seq 0 (length fs)).

  (** symmetry.cpp:272-337: the numpy array result[n1, .., nk, :] = concat(c_1[n1], .., c_k[nk])
      reshaped in C order, i.e. the last factor runs fastest *)
  Definition cart_step (acc outs : list sector) : list sector :=
    flat_map (fun p => map (fun q => p ++ q) outs) acc.
  Definition cartesian (ll : list (list sector)) : list sector := fold_left cart_step ll [[]].
  Definition product_outcomes (fs : facs) (a b : sector) : list sector :=
    match fs with
    | [] => []
    | _ => cartesian (map (fun i => sym_outcomes (fsym fs i) (factor_sector fs a i) (factor_sector fs b i))
                          (seq 0 (length fs)))
    end.

  (** symmetry.cpp:404-416 *)
  Definition product_dual (fs : facs) (a : sector) : sector :=
    flat_map (fun i => sym_dual (fsym fs i) (factor_sector fs a i)) (seq 0 (length fs)).

  (** symmetry.cpp:434-446; has_unique_fusion: base_symmetry.cpp (fusion_style <= multiple_unique) *)
  Definition product_n (fs : facs) (a b c : sector) : nat :=
    if max_fusion_style fs <=? style_multiple_unique then 1
    else fold_left (fun r i => r * sym_n (fsym fs i) (factor_sector fs a i) (factor_sector fs b i)
                                         (factor_sector fs c i)) (seq 0 (length fs)) 1.

  (** symmetry.cpp:500-511; is_abelian: fusion_style == single *)
  Definition product_dim (fs : facs) (a : sector) : nat :=
    if max_fusion_style fs =? style_single then 1
    else fold_left (fun r i => r * sym_dim (fsym fs i) (factor_sector fs a i)) (seq 0 (length fs)) 1.

  Definition product_sym (fs : facs) : symmetry :=
    Sym (total_len fs) (product_valid fs) (product_trivial fs) (product_outcomes fs)
        (product_n fs) (product_dual fs) (product_dim fs).

  (** symmetry.cpp:448-498; an infinite factor raises SymmetryError *)
  Fixpoint all_some {A} (l : list (option A)) : option (list A) :=
    match l with
    | [] => Some []
    | Some x :: l' => match all_some l' with Some r => Some (x :: r) | None => None end
    | None :: _ => None
    end.
  Definition product_all (fs : facs) : option (list sector) :=
    match fs with
    | [] => Some []
    | _ => match all_some (map (@fac_all K) fs) with
           | Some ll => Some (cartesian ll)
           | None => None
           end
    end.

  (** symmetry.cpp:339-372: factor-wise, then concatenated row by row *)
  Definition concat_rows (n : nat) (comps : list (list sector)) : list sector :=
    map (fun r => flat_map (fun c => nth r c []) comps) (seq 0 n).
  Definition product_broadcast (fs : facs) (a b : list sector) : option (list sector) :=
    match all_some (map (fun i => fusion_outcomes_broadcast (fsym fs i)
                       (map (fun s => factor_sector fs s i) a) (map (fun s => factor_sector fs s i) b))
                    (seq 0 (length fs))) with
    | Some comps => Some (concat_rows (length a) comps)
    | None => None
    end.
  (** symmetry.cpp:374-402 *)
  Definition product_multiple_fusion_broadcast (fs : facs) (acc : list sector) (rest : list (list sector))
    : option (list sector) :=
    match all_some (map (fun i => multiple_fusion_broadcast_loop (fsym fs i)
                       (map (fun s => factor_sector fs s i) acc)
                       (map (map (fun s => factor_sector fs s i)) rest))
                    (seq 0 (length fs))) with
    | Some comps => Some (concat_rows (match comps with c :: _ => length c | [] => 0 end) comps)
    | None => None
    end.

  (** fusion_symbol.cpp:559-597 *)
  Definition mul4 (s t : nat * nat * nat * nat) : nat * nat * nat * nat :=
    match s, t with (s1, s2, s3, s4), (t1, t2, t3, t4) => (s1 * t1, s2 * t2, s3 * t3, s4 * t4) end.
  Definition kron (a b : farray K) : farray K :=
    FArr (mul4 (fsh a) (fsh b))
      (fun i j k l => match fsh b with (t1, t2, t3, t4) =>
         omul o (fat a (i / t1) (j / t2) (k / t3) (l / t4))
                (fat b (i mod t1) (j mod t2) (k mod t3) (l mod t4)) end).
  (** fusion_symbol.cpp:539-557 *)
  Definition one_farray : farray K := FArr (1, 1, 1, 1) (fun _ _ _ _ => o1 o).

  (** the array returned by a factor's _f_symbol: its shape is given by the fusion multiplicities
      (base_symmetry.cpp:138-160 documents the axes [mu nu kappa lambda]) *)
  Definition f_array (f : factor) (a b c d e g : sector) : farray K :=
    let N := n_symbol (fac_sym f) in
    FArr (N b c e, N a e d, N a b g, N g c d) (fac_F f a b c d e g).
  Definition r_array (f : factor) (a b c : sector) : farray K :=
    FArr (n_symbol (fac_sym f) a b c, 1, 1, 1) (fun m _ _ _ => fac_R f a b c m).

  (** symmetry.cpp:578-594 *)
  Definition product_f_array (fs : facs) (a b c d e f : sector) : farray K :=
    fold_left (fun res i =>
      kron res (f_array (nth i fs nofac) (factor_sector fs a i) (factor_sector fs b i)
        (factor_sector fs c i) (factor_sector fs d i) (factor_sector fs e i) (factor_sector fs f i)))
      (seq 0 (length fs)) one_farray.
  (** symmetry.cpp:596-606 *)
  Definition product_r_array (fs : facs) (a b c : sector) : farray K :=
    fold_left (fun res i =>
      kron res (r_array (nth i fs nofac) (factor_sector fs a i) (factor_sector fs b i)
        (factor_sector fs c i))) (seq 0 (length fs)) one_farray.
  Definition product_F (fs : facs) : Fsym K := fun a b c d e f => fat (product_f_array fs a b c d e f).
  Definition product_R (fs : facs) : Rsym K := fun a b c m => fat (product_r_array fs a b c) m 0 0 0.

  (** symmetry.cpp:545-556 *)
  Definition product_qd (fs : facs) (a : sector) : K :=
    if max_fusion_style fs =? style_single then o1 o
    else fold_left (fun r i => omul o r (fac_qd (nth i fs nofac) (factor_sector fs a i)))
                   (seq 0 (length fs)) (o1 o).
  (** specification only: the product of the factors' Frobenius-Schur indicators *)
  Definition product_fs (fs : facs) (a : sector) : K :=
    fold_left (fun r i => omul o r (fac_fs (nth i fs nofac) (factor_sector fs a i)))
              (seq 0 (length fs)) (o1 o).
End Product.
