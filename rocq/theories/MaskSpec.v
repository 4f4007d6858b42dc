(** What a well-formed mask is.  [L]: the large leg, [N]: the small leg, [M]: the data of the projection from [L] to [N]. *)
From Verif Require Import Util RowModel GridModel SymModel CatSpec SpaceModel SpaceSpec BlockModel SparseModel MaskModel.
Set Implicit Arguments. Unset Strict Implicit.
Open Scope nat_scope.

(** the positions of [true], ascending *)
Definition kept (v : list bool) : list nat := filter (fun i => nth i v false) (seq 0 (length v)).
(** test_mask_sanity (abelian.cpp:507-538) and the layout of the data: the rows are [0; l_0], [1; l_1], ... with ascending l_k, one for every sector of the small leg;
    sector k of the small leg is sector l_k of the large leg, its multiplicity is the number of states that are kept *)
Record mask_ok (L N : espace) (M : mdata) : Prop := {
  mk_small : map (fun e => nth 0 (fst e) 0) M = seq 0 (nsec N);
  mk_large : StronglySorted lt (map (fun e => nth 1 (fst e) 0) M);
  mk_rows : forall e, In e M -> exists k l, fst e = [k; l] /\ k < nsec N /\ l < nsec L /\ nth k (es_def N) [] = nth l (es_def L) [] /\
      bshape (snd e) = [nth l (es_mults L) 0] /\ length (bdata (snd e)) = nth l (es_mults L) 0 /\ length (filter (fun x => x) (bdata (snd e))) = nth k (es_mults N) 0;
  mk_dual : es_dual N = es_dual L;
}.
(** the vector over the internal basis of the large leg that a projection stands for *)
Definition mask_vector (S : symmetry) (L : espace) (M : mdata) : list bool := bdata (mask_to_block S L true M).
(** the position of a leg of the domain or of the codomain in the order cod ++ rev dom of all legs *)
Definition leg_of (cod dom : list espace) (in_domain : bool) (idx : nat) : nat := if in_domain then length cod + (length dom - 1 - idx) else idx.
