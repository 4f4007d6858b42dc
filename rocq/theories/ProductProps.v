(** C14 (product symmetries act factor-wise) and C15 (equivalence of symmetries). *)
From Coq Require Import Reals String.
From Verif Require Import Util RowModel RowProofs SymModel SymProofs AbelianModel AbelianProofs
  Su2Model Su2Proofs CatSpec CatProofs Cplx Tower FinRing AnyonModel AnyonProofs AnyonProofs2
  ZNAnyonProofs ProductModel ProductProofs ProductCat SymEqModel SymEqProofs.
Open Scope nat_scope.

(** [part fs a i]: the components of the product sector [a] that belong to factor [i];
    [fac fs i]: the fusion rules of factor [i]. *)
Notation part := (@factor_sector C).
Notation fac fs i := (fac_sym (nth i fs (nofac Cops))).

(** a product sector is the concatenation of its parts, and it is valid iff all parts are *)
Theorem C14_sector_is_concatenation : forall (fs : list (factor C)) a,
  product_valid Cops fs a = true <->
  (length a = total_len fs /\ forall i, i < length fs -> sym_valid (fac fs i) (part fs a i) = true).
Proof.
  intros fs a. split.
  - intros H. split; [now apply (valid_len (o := Cops))|]. intros i Hi. now apply valid_parts.
  - intros [L H]. unfold product_valid. rewrite L, Nat.eqb_refl. cbn [andb].
    apply forallb_forall. intros i Hi. apply in_seq in Hi. apply H. lia.
Qed.
Print Assumptions C14_sector_is_concatenation.

Theorem C14_parts_concat : forall (fs : list (factor C)) a, length a = total_len fs ->
  flat_map (part fs a) (seq 0 (length fs)) = a.
Proof. exact (@parts_concat C). Qed.
Print Assumptions C14_parts_concat.

(** fusion outcomes: exactly the sectors all of whose parts are outcomes of the factors, each
    once, with the product of the factors' multiplicities *)
Theorem C14_fusion_factorwise : forall fs, fs <> [] -> Forall (honest Cops) fs ->
  forall a b, product_valid Cops fs a = true -> product_valid Cops fs b = true ->
  NoDup (product_outcomes Cops fs a b) /\
  (forall c, In c (product_outcomes Cops fs a b) <->
     length c = total_len fs /\
     forall i, i < length fs -> In (part fs c i) (sym_outcomes (fac fs i) (part fs a i) (part fs b i))) /\
  (forall c, length c = total_len fs ->
     n_symbol (product_sym Cops fs) a b c =
     nprod (map (fun i => n_symbol (fac fs i) (part fs a i) (part fs b i) (part fs c i))
                (seq 0 (length fs)))).
Proof.
  intros fs NE H a b Va Vb.
  assert (FR : Forall (fun f => fusion_ring (fac_sym f)) fs)
    by (eapply Forall_impl; [|exact H]; intros f Hf; apply Hf).
  split; [|split].
  - exact (fr_nodup (full_ring Cops NE FR) Va Vb).
  - intros c. now apply full_out_parts.
  - intros c Lc. now apply product_n_symbol.
Qed.
Print Assumptions C14_fusion_factorwise.

(** duals are taken factor by factor *)
Theorem C14_dual_factorwise : forall fs, fs <> [] -> Forall (honest Cops) fs ->
  forall a, product_valid Cops fs a = true ->
  product_valid Cops fs (product_dual Cops fs a) = true /\
  product_dual Cops fs a =
    concat (map (fun i => sym_dual (fac fs i) (part fs a i)) (seq 0 (length fs))).
Proof.
  intros fs NE H a Va.
  assert (R := product_ring NE H). split; [exact (fr_dual_valid R Va)|].
  unfold product_dual. apply flat_map_concat_map.
Qed.
Print Assumptions C14_dual_factorwise.

(** the fusion-ring laws are inherited *)
Theorem C14_ring_laws : forall fs, fs <> [] -> Forall (honest Cops) fs ->
  fusion_ring (product_sym Cops fs).
Proof. exact (@product_ring C Cops). Qed.
Print Assumptions C14_ring_laws.

Theorem C14_dimensions : forall fs, fs <> [] -> Forall (honest Cops) fs ->
  Forall (fun f => dim_law (fac_sym f)) fs -> dim_law (product_sym Cops fs).
Proof. exact (@product_dims C Cops). Qed.
Print Assumptions C14_dimensions.

(** pentagon, hexagon, unitarity, trivial moves, Frobenius-Schur and quantum dimensions are
    inherited by the Kronecker products of the F and R symbols; the C symbol is the default *)
Theorem C14_category_laws : forall fs, fs <> [] -> Forall (honest Cops) fs -> Forall is_cat fs ->
  braided_category (product_sym Cops fs) Cops (product_F Cops fs) (product_R Cops fs)
    (product_fs Cops fs) (product_qd Cops fs) /\
  C_is_RFR (product_sym Cops fs) Cops (product_F Cops fs) (product_R Cops fs)
    (default_c_symbol Cops (product_F Cops fs) (product_R Cops fs)).
Proof.
  intros fs NE H D. split; [now apply product_category|].
  intros a b c _ _ _ e _ d _ f _ _ mu nu kap lam _ _ _ _. unfold default_c_symbol.
  cbn [Cops omul oconj]. ring.
Qed.
Print Assumptions C14_category_laws.

(** the entry of the product's F symbol at combined multiplicity indices is the product of the
    entries: appending a factor [f] to the factors [fs] *)
Theorem C14_F_symbol_entry : forall fs f a b c d e g i j k l i' j' k' l',
  length a = total_len (fs ++ [f]) -> length b = total_len (fs ++ [f]) ->
  length c = total_len (fs ++ [f]) -> length d = total_len (fs ++ [f]) ->
  length e = total_len (fs ++ [f]) -> length g = total_len (fs ++ [f]) ->
  let p1 := firstn (total_len fs) in let p2 := skipn (total_len fs) in
  let N := n_symbol (fac_sym f) in
  i' < N (p2 b) (p2 c) (p2 e) -> j' < N (p2 a) (p2 e) (p2 d) ->
  k' < N (p2 a) (p2 b) (p2 g) -> l' < N (p2 g) (p2 c) (p2 d) ->
  product_F Cops (fs ++ [f]) a b c d e g
    (i * N (p2 b) (p2 c) (p2 e) + i') (j * N (p2 a) (p2 e) (p2 d) + j')
    (k * N (p2 a) (p2 b) (p2 g) + k') (l * N (p2 g) (p2 c) (p2 d) + l') =
  Cmul (product_F Cops fs (p1 a) (p1 b) (p1 c) (p1 d) (p1 e) (p1 g) i j k l)
       (fac_F f (p2 a) (p2 b) (p2 c) (p2 d) (p2 e) (p2 g) i' j' k' l').
Proof.
  intros *. intros La Lb Lc Ld Le Lg p1 p2 N Hi Hj Hk Hl. unfold product_F at 1.
  rewrite (f_array_snoc La Lb Lc Ld Le Lg). fold p1 p2.
  cbn [kron fat f_array fsh]. fold N. cbn [Cops omul].
  rewrite !Nat.div_add_l by lia. rewrite !(Nat.div_small) by auto. rewrite !Nat.add_0_r.
  rewrite !(Nat.add_comm (_ * _)), !Nat.mod_add by lia. rewrite !Nat.mod_small by auto.
  reflexivity.
Qed.
Print Assumptions C14_F_symbol_entry.

(** all_sectors of a product of finite factors lists every valid sector exactly once *)
Theorem C14_all_sectors : forall fs, fs <> [] -> Forall (honest Cops) fs ->
  Forall (fun f => exists l, fac_all f = Some l /\ NoDup l /\
     forall a, In a l <-> sym_valid (fac_sym f) a = true) fs ->
  exists l, product_all fs = Some l /\ NoDup l /\
    forall a, In a l <-> product_valid Cops fs a = true.
Proof.
  intros fs NE H A.
  assert (FR : Forall (fun f => fusion_ring (fac_sym f)) fs)
    by (eapply Forall_impl; [|exact H]; intros f Hf; apply Hf).
  exact (@product_all_ok C Cops fs NE FR A).
Qed.
Print Assumptions C14_all_sectors.

(** the factor-wise broadcast implementations of an abelian product agree with fusing one pair of
    product sectors after the other *)
Theorem C14_broadcast : forall fs, fs <> [] -> Forall (honest Cops) fs ->
  Forall (@single_outcome C) fs ->
  (forall a b, Forall (fun x => product_valid Cops fs x = true) a ->
     Forall (fun x => product_valid Cops fs x = true) b -> length a = length b ->
     exists c, product_broadcast Cops fs a b = Some c /\
               fusion_outcomes_broadcast (product_sym Cops fs) a b = Some c) /\
  (forall acc rest, Forall (fun x => product_valid Cops fs x = true) acc ->
     Forall (fun l => length l = length acc /\ Forall (fun x => product_valid Cops fs x = true) l) rest ->
     exists c, product_multiple_fusion_broadcast Cops fs acc rest = Some c /\
               multiple_fusion_broadcast_loop (product_sym Cops fs) acc rest = Some c).
Proof.
  intros fs NE H SO.
  assert (FR : Forall (fun f => fusion_ring (fac_sym f)) fs)
    by (eapply Forall_impl; [|exact H]; intros f Hf; apply Hf).
  split.
  - intros a b Fa Fb L. destruct (product_broadcast_ok NE FR SO Fa Fb L) as [E N].
    rewrite E. destruct (fusion_outcomes_broadcast _ _ _) as [c|]; [exists c; auto|easy].
  - intros acc rest Fa Fr. destruct (product_multi_ok NE FR SO Fa Fr) as [E N].
    rewrite E. destruct (multiple_fusion_broadcast_loop _ _ _) as [c|]; [exists c; auto|easy].
Qed.
Print Assumptions C14_broadcast.

(** *** concrete products that meet the hypotheses *)
Definition facU1 : factor C := Factor U1 0 0 None (fun _ _ _ _ _ _ _ _ _ _ => C1) (fun _ _ _ _ => C1)
  (fun _ => C1) (fun _ => C1).
Definition facSU2 : factor C := Factor SU2 10 0 None (fun _ _ _ _ _ _ _ _ _ _ => C1) (fun _ _ _ _ => C1)
  (fun _ => C1) (fun _ => C1).
Definition facFib : factor C := Factor Fibonacci 10 20 (Some [[0%Z]; [1%Z]])
  (fib_F Cops fib_ftab) (fib_R Cops (fib_rtab true)) (fun a => RtoC (IZR (fib_fs a)))
  (fun a => RtoC (fib_qdim a)).
Definition facZ3 : factor C := Factor (ZNAnyon 3) 0 20 (Some (ZN_all_sectors 3))
  zna_F (zna_R 3 1) (fun _ => C1) (fun _ => C1).

Example honest_U1 : honest Cops facU1.
Proof.
  constructor; auto. exact (ag_fusion_ring U1_group).
Qed.
Example honest_SU2 : honest Cops facSU2.
Proof.
  constructor; auto; try discriminate. exact SU2_ring.
Qed.
Example honest_Fib : honest Cops facFib.
Proof. constructor; auto; try discriminate. exact Fibonacci_ring. Qed.
Example honest_Z3 : honest Cops facZ3.
Proof. constructor; auto. apply (ag_fusion_ring (ZNAnyon_group (N := 3) ltac:(lia))). Qed.

(** U(1) x SU(2): ring laws, dimensions and a fusion *)
Example C14_ex_U1_SU2 :
  fusion_ring (product_sym Cops [facU1; facSU2]) /\ dim_law (product_sym Cops [facU1; facSU2]) /\
  product_outcomes Cops [facU1; facSU2] [3; 1]%Z [-1; 2]%Z = [[2; 1]; [2; 3]]%Z.
Proof.
  split; [|split].
  - apply C14_ring_laws; [easy|].
    constructor; [apply honest_U1|constructor; [apply honest_SU2|constructor]].
  - apply C14_dimensions; [easy| |].
    + constructor; [apply honest_U1|constructor; [apply honest_SU2|constructor]].
    + constructor; [exact (ag_dim_law U1_group)|constructor; [exact SU2_dims|constructor]].
  - reflexivity.
Qed.

(** Fibonacci x Z_3 anyons x Fibonacci is a braided category with 12 sectors *)
Example C14_ex_Fib_Z3 :
  let fs := [facFib; facZ3; facFib] in
  braided_category (product_sym Cops fs) Cops (product_F Cops fs) (product_R Cops fs)
    (product_fs Cops fs) (product_qd Cops fs) /\
  exists l, product_all fs = Some l /\ length l = 12 /\
    (forall a, In a l <-> product_valid Cops fs a = true).
Proof.
  intros fs.
  assert (H : Forall (honest Cops) fs)
    by (constructor; [apply honest_Fib|constructor; [apply honest_Z3|constructor; [apply honest_Fib|constructor]]]).
  split.
  - apply C14_category_laws; [easy|exact H|].
    constructor; [apply fib_category|constructor; [apply zna_category; lia|constructor; [apply fib_category|constructor]]].
  - destruct (@C14_all_sectors fs) as (l & E & N & I); [easy|exact H| |].
    + assert (A : exists l, fac_all facFib = Some l /\ NoDup l /\
         forall a, In a l <-> sym_valid (fac_sym facFib) a = true).
      { eexists. split; [reflexivity|]. split.
        - repeat constructor; cbn; intuition congruence.
        - intros a. split.
          + intros [<-|[<-|[]]]; reflexivity.
          + apply fib_secs. }
      constructor; [exact A|constructor; [|constructor; [exact A|constructor]]].
      eexists. split; [reflexivity|]. apply ZN_all_sectors_spec. lia.
    + exists l. split; auto. split; auto. vm_compute in E. injection E as <-. reflexivity.
Qed.

(** U(1) x Z_3: the hypotheses of C14_broadcast *)
Example C14_ex_broadcast :
  Forall (honest Cops) [facU1; facZ3] /\ Forall (@single_outcome C) [facU1; facZ3] /\
  product_broadcast Cops [facU1; facZ3] [[3; 1]; [0; 2]]%Z [[-1; 2]; [5; 2]]%Z = Some [[2; 0]; [5; 1]]%Z.
Proof.
  split; [|split].
  - constructor; [apply honest_U1|constructor; [apply honest_Z3|constructor]].
  - constructor; [|constructor; [|constructor]].
    + intros a b Ha Hb. rewrite (ag_outcomes U1_group) by auto. eauto.
    + intros a b Ha Hb. cbn [fac_sym facZ3]. rewrite (ag_outcomes (ZNAnyon_group (N := 3) ltac:(lia))) by auto. eauto.
  - reflexivity.
Qed.

(** ** C15 *)
(** [same_class f g]: the two factors are instances of the same class with the same parameters,
    where the toric code is the quantum double of Z_2 *)
Definition same_class (f g : nfactor) : Prop := canon (nf_kind f) = canon (nf_kind g).

(** is_equivalent_to(other) finds a matching iff there is one, whatever the greedy order *)
Theorem C15_equivalent_iff_matching : forall fs gs,
  is_equivalent_to fs gs false = true <->
  exists gs', Permutation gs gs' /\ Forall2 same_class fs gs'.
Proof.
  intros fs gs. rewrite equiv_loose. unfold matches.
  split; intros (gs' & P & F); exists gs'; split; auto;
    (eapply Forall2_impl'; [|exact F]); intros a b; cbn beta; unfold same_class;
    now rewrite is_equivalent_factor_canon.
Qed.
Print Assumptions C15_equivalent_iff_matching.

Theorem C15_equivalence_relation :
  (forall fs, is_equivalent_to fs fs false = true) /\
  (forall fs gs, is_equivalent_to fs gs false = is_equivalent_to gs fs false) /\
  (forall fs gs hs, is_equivalent_to fs gs false = true -> is_equivalent_to gs hs false = true ->
     is_equivalent_to fs hs false = true).
Proof.
  split; [|split].
  - intros. apply equiv_loose. apply (matches_refl factor_test).
  - intros. apply eq_true_iff_eq. rewrite !equiv_loose. split; apply (matches_sym factor_test).
  - intros fs gs hs. rewrite !equiv_loose. apply (matches_trans factor_test).
Qed.
Print Assumptions C15_equivalence_relation.

(** the result does not depend on the order in which the factors are listed or matched *)
Theorem C15_order_independent : forall fs fs' gs gs',
  Permutation fs fs' -> Permutation gs gs' ->
  is_equivalent_to fs gs false = is_equivalent_to fs' gs' false.
Proof.
  assert (H : forall fs fs' gs gs', Permutation fs fs' -> Permutation gs gs' ->
    is_equivalent_to fs gs false = true -> is_equivalent_to fs' gs' false = true).
  { intros fs fs' gs gs' P Q. rewrite !equiv_loose. intros M.
    apply (matches_perm_r Q). apply (matches_sym factor_test).
    apply (matches_perm_r P). now apply (matches_sym factor_test). }
  intros fs fs' gs gs' P Q. apply eq_true_iff_eq. split; apply H; auto; now apply Permutation_sym.
Qed.
Print Assumptions C15_order_independent.

(** strict_ordering=True and [equals] compare position by position; equals also compares names;
    strict implies loose *)
Theorem C15_strict_and_equals :
  (forall fs gs, is_equivalent_to fs gs true = true <-> Forall2 same_class fs gs) /\
  (forall fs gs, sym_equals fs gs = true <->
     Forall2 (fun f g => nf_name f = nf_name g /\ same_class f g) fs gs) /\
  (forall fs gs, sym_equals fs gs = true -> is_equivalent_to fs gs true = true) /\
  (forall fs gs, is_equivalent_to fs gs true = true -> is_equivalent_to fs gs false = true).
Proof.
  split; [exact equiv_strict|]. split; [exact equals_spec|]. split.
  - intros fs gs. rewrite equals_spec, equiv_strict. apply Forall2_impl'. tauto.
  - intros fs gs. rewrite equiv_strict, C15_equivalent_iff_matching. intros F. exists gs. auto.
Qed.
Print Assumptions C15_strict_and_equals.

Theorem C15_equals_equivalence_relation :
  (forall fs, sym_equals fs fs = true) /\
  (forall fs gs, sym_equals fs gs = sym_equals gs fs) /\
  (forall fs gs hs, sym_equals fs gs = true -> sym_equals gs hs = true -> sym_equals fs hs = true).
Proof.
  assert (T : equivalence_test factor_equals).
  { constructor; intros *; rewrite ?factor_equals_iff; intuition congruence. }
  assert (E : forall fs gs, sym_equals fs gs = true <->
     Forall2 (fun a b => factor_equals a b = true) fs gs).
  { intros. rewrite equals_spec. split; apply Forall2_impl'; intros a b; now rewrite factor_equals_iff. }
  split; [|split].
  - intros. apply E, (Forall2_R_refl T).
  - intros. apply eq_true_iff_eq. rewrite !E. split; apply (Forall2_R_sym T).
  - intros fs gs hs. rewrite !E. apply (Forall2_R_trans T).
Qed.
Print Assumptions C15_equals_equivalence_relation.

Open Scope Z_scope.
Example C15_ex :
  let nf k := NFactor k None in
  let A := [nf KU1; nf KToricCode; nf (KZN 3); nf KU1] in
  let B := [nf (KQuantumDouble 2); nf KU1; nf KU1; nf (KZN 3)] in
  let D := [nf (KQuantumDouble 2); nf KU1; nf KU1; nf (KZN 4)] in
  is_equivalent_to A B false = true /\ is_equivalent_to A B true = false /\
  is_equivalent_to A D false = false /\ sym_equals A A = true /\
  sym_equals [nf KU1] [NFactor KU1 (Some "Sz"%string)] = false.
Proof. repeat split; reflexivity. Qed.

(** The class parameters are compared literally: ZNAnyonCategory(N, n) keeps n % N with the sign
    of C++, so n = -1 and n = N - 1 give the same R symbols but inequivalent factors. *)
Theorem C15_same_category_not_equivalent :
  (forall a b c m, zna_R 3 (-1) a b c m = zna_R 3 2 a b c m) /\
  is_equivalent_factor (KZNAnyon 3 (Z.rem (-1) 3)) (KZNAnyon 3 (Z.rem 2 3)) = false.
Proof.
  split; [|reflexivity].
  intros a b c m. unfold zna_R, phase_pow, zna_angle.
  change (Z.rem (-1) 3) with (-1). change (Z.rem 2 3) with 2.
  set (k := (q0 a * q0 b)). symmetry.
  replace (IZR k * (2 * PI * IZR 2 / IZR 3))%R
    with (IZR k * (2 * PI * IZR (-1) / IZR 3) + IZR k * (2 * PI))%R by field.
  apply cis_period.
Qed.
Print Assumptions C15_same_category_not_equivalent.
