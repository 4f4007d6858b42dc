(** C63: decompositions of the abelian backend, on the level of the dense matrices.
    [tensor_ok S [C] [D] A]: the block-sparse data of a matrix from D to C; [entry o S [C] [D] A [x; y]]: its dense entries (SparseSpec.v).  [es_dim S L]: the dimension of a leg.
    [diag_data_ok]: data of a diagonal tensor (AbDecSpec.v); [ab_diag_block]: its vector (diagonal_tensor_to_block).
    [qr_contract] etc.: what the block backend promises for the blocks of A; [iso_cols], [iso_rows]: orthonormal columns or rows (FtOpsSpec.v).
    Tensors with several legs are combined to one codomain and one domain leg before and split afterwards (C38). *)
From Verif Require Import Util StableSort RowModel RowProofs GridModel GridProofs SymModel SymProofs CatSpec Sums SpaceModel SpaceSpec SpaceProofs SpaceProofs2 SpaceProofs7
  PipeModel TreeModel TensorModel TensorSpec TensorProofs5 BlockModel BlockProofs SparseModel SparseSpec SparseProofs ConvertModel FtOpsModel FtOpsSpec FtOpsProofs10 AbDecModel AbDecSpec AbDecProofs AbDecProofs2 AbDecProofs3 AbDecProofs4.
From Verif Require TensorProps.
Open Scope nat_scope.

Lemma new_leg_of (S : tsymm) C D P Q d : tsymm_ok S -> es_ok S C -> es_ok S D -> new_tprod S [LSpace C] = Some P -> new_tprod S [LSpace D] = Some Q ->
  exists N, from_largest_common_subspace S [tp_space P; tp_space Q] d = Some N /\ es_ok S N /\ es_dual N = d /\ forall c, es_mult S N c = Nat.min (es_mult S C c) (es_mult S D c).
Proof.
  intros OK OC OD EP EQ. destruct (prod_ok OK OC EP) as [HP MP]. destruct (prod_ok OK OD EQ) as [HQ MQ]. destruct (new_leg_min OK d HP HQ) as (L & N & E1 & OL & E2 & E3 & HN & M). exists L. split; [exact E1|]. split; [exact OL|]. split; [exact E2|].
  intros c. destruct (one_leg_product OK OL) as (N' & E' & _ & _ & M'). rewrite E3 in E'. injection E' as <-. now rewrite <- M', M, MP, MQ.
Qed.
(** the new leg and the products of one leg exist (hypotheses of the theorems below) *)
Theorem C63_new_leg : forall (S : tsymm) C D d, tsymm_ok S -> es_ok S C -> es_ok S D -> exists P Q N, new_tprod S [LSpace C] = Some P /\ new_tprod S [LSpace D] = Some Q /\
  from_largest_common_subspace S [tp_space P; tp_space Q] d = Some N /\ es_ok S N /\ es_dual N = d /\ forall c, es_mult S N c = Nat.min (es_mult S C c) (es_mult S D c).
Proof.
  intros S C D d OK OC OD. destruct (one_leg_product OK OC) as (P & EP & _). destruct (one_leg_product OK OD) as (Q & EQ & _). destruct (new_leg_of S C D P Q d OK OC OD EP EQ) as (N & H). exists P, Q, N. auto.
Qed.
Print Assumptions C63_new_leg.
(** qr: A = Q R, dagger(Q) Q = 1 *)
Theorem C63_qr : forall K (o : ops K) (S : tsymm) fuse C D P Q N d (A : list (list nat * blk K)) matrix_qr, is_semiring o -> oconj o (o0 o) = o0 o -> oconj o (o1 o) = o1 o ->
  tsymm_ok S -> abelian_group_laws S fuse -> tensor_ok S [C] [D] A -> new_tprod S [LSpace C] = Some P -> new_tprod S [LSpace D] = Some Q ->
  from_largest_common_subspace S [tp_space P; tp_space Q] d = Some N -> qr_contract o (map snd A) matrix_qr ->
  exists q r, ab_qr S o P Q C D N matrix_qr A = Some (q, r) /\ tensor_ok S [C] [N] q /\ tensor_ok S [N] [D] r /\
  iso_cols o (es_dim S C) (es_dim S N) (fun x z => entry o S [C] [N] q [x; z]) /\
  forall x y, x < es_dim S C -> y < es_dim S D -> entry o S [C] [D] A [x; y] = sumn o (es_dim S N) (fun z => omul o (entry o S [C] [N] q [x; z]) (entry o S [N] [D] r [z; y])).
Proof.
  intros K o S fuse C D P Q N d A f SR Z0 Z1 OK G TA EP EQ EN HF. assert (OC : es_ok S C) by (apply (to_legs TA); now left). assert (OD : es_ok S D) by (apply (to_legs TA); right; now left).
  destruct (new_leg_of S C D P Q d OK OC OD EP EQ) as (N' & EN' & ON & _ & NM). rewrite EN in EN'. injection EN' as <-.
  destruct (ab_rows_spec OK G OC OD ON TA EP EQ NM) as (l & EL & RL). exact (qr_rows SR Z0 Z1 G OC OD ON NM TA RL EL HF).
Qed.
Print Assumptions C63_qr.
(** lq: A = L Q, Q dagger(Q) = 1 *)
Theorem C63_lq : forall K (o : ops K) (S : tsymm) fuse C D P Q N d (A : list (list nat * blk K)) matrix_lq, is_semiring o -> oconj o (o0 o) = o0 o -> oconj o (o1 o) = o1 o ->
  tsymm_ok S -> abelian_group_laws S fuse -> tensor_ok S [C] [D] A -> new_tprod S [LSpace C] = Some P -> new_tprod S [LSpace D] = Some Q ->
  from_largest_common_subspace S [tp_space P; tp_space Q] d = Some N -> lq_contract o (map snd A) matrix_lq ->
  exists l q, ab_lq S o P Q C D N matrix_lq A = Some (l, q) /\ tensor_ok S [C] [N] l /\ tensor_ok S [N] [D] q /\
  iso_rows o (es_dim S N) (es_dim S D) (fun z y => entry o S [N] [D] q [z; y]) /\
  forall x y, x < es_dim S C -> y < es_dim S D -> entry o S [C] [D] A [x; y] = sumn o (es_dim S N) (fun z => omul o (entry o S [C] [N] l [x; z]) (entry o S [N] [D] q [z; y])).
Proof.
  intros K o S fuse C D P Q N d A f SR Z0 Z1 OK G TA EP EQ EN HF. assert (OC : es_ok S C) by (apply (to_legs TA); now left). assert (OD : es_ok S D) by (apply (to_legs TA); right; now left).
  destruct (new_leg_of S C D P Q d OK OC OD EP EQ) as (N' & EN' & ON & _ & NM). rewrite EN in EN'. injection EN' as <-.
  destruct (ab_rows_spec OK G OC OD ON TA EP EQ NM) as (l & EL & RL). exact (lq_rows SR Z0 Z1 G OC OD ON NM TA RL EL HF).
Qed.
Print Assumptions C63_lq.
(** svd: A = U diag(s) V with orthonormal columns of U and rows of V; [good]: what the block backend promises for singular values *)
Theorem C63_svd : forall K (o : ops K) (S : tsymm) fuse C D P Q N d (A : list (list nat * blk K)) good matrix_svd, is_semiring o -> oconj o (o0 o) = o0 o -> oconj o (o1 o) = o1 o ->
  tsymm_ok S -> abelian_group_laws S fuse -> tensor_ok S [C] [D] A -> new_tprod S [LSpace C] = Some P -> new_tprod S [LSpace D] = Some Q ->
  from_largest_common_subspace S [tp_space P; tp_space Q] d = Some N -> svd_contract o (map snd A) good matrix_svd -> good (o0 o) ->
  exists u s v, ab_svd S o P Q C D N matrix_svd A = Some (u, s, v) /\ tensor_ok S [C] [N] u /\ diag_data_ok N s /\ tensor_ok S [N] [D] v /\
  iso_cols o (es_dim S C) (es_dim S N) (fun x z => entry o S [C] [N] u [x; z]) /\ iso_rows o (es_dim S N) (es_dim S D) (fun z y => entry o S [N] [D] v [z; y]) /\
  (forall z, z < es_dim S N -> good (vec o (ab_diag_block S o N s) z)) /\
  forall x y, x < es_dim S C -> y < es_dim S D ->
    entry o S [C] [D] A [x; y] = sumn o (es_dim S N) (fun z => omul o (omul o (entry o S [C] [N] u [x; z]) (vec o (ab_diag_block S o N s) z)) (entry o S [N] [D] v [z; y])).
Proof.
  intros K o S fuse C D P Q N d A good f SR Z0 Z1 OK G TA EP EQ EN HF G0. assert (OC : es_ok S C) by (apply (to_legs TA); now left). assert (OD : es_ok S D) by (apply (to_legs TA); right; now left).
  destruct (new_leg_of S C D P Q d OK OC OD EP EQ) as (N' & EN' & ON & _ & NM). rewrite EN in EN'. injection EN' as <-.
  destruct (ab_rows_spec OK G OC OD ON TA EP EQ NM) as (l & EL & RL). exact (svd_rows SR Z0 Z1 G OC OD ON NM TA RL EL HF G0).
Qed.
Print Assumptions C63_svd.
(** eigh of a hermitian matrix: A = V diag(w) dagger(V), dagger(V) V = 1.  The new leg is as_ElementarySpace of the domain with the duality of the leg (the front end combines the legs to pipes of that duality, decompositions.cpp:383-394).
    A symmetry that can be dropped has to have positive dimensions *)
Theorem C63_eigh : forall K (o : ops K) (S : tsymm) fuse E P (A : list (list nat * blk K)) good matrix_eigh, is_semiring o -> oconj o (o0 o) = o0 o -> oconj o (o1 o) = o1 o ->
  tsymm_ok S -> (s_drop S = true -> symm_ok S) -> abelian_group_laws S fuse -> tensor_ok S [E] [E] A -> new_tprod S [LSpace E] = Some P ->
  eigh_contract o (map snd A) good matrix_eigh -> good (o0 o) ->
  (forall x y, x < es_dim S E -> y < es_dim S E -> entry o S [E] [E] A [x; y] = oconj o (entry o S [E] [E] A [y; x])) ->
  let N := as_elementary S (tp_space P) (es_dual E) in
  es_dual N = es_dual E /\
  exists w v, ab_eigh o E matrix_eigh A = (w, v) /\ diag_data_ok N w /\ tensor_ok S [E] [N] v /\
  iso_cols o (es_dim S E) (es_dim S N) (fun x z => entry o S [E] [N] v [x; z]) /\ (forall z, z < es_dim S N -> good (vec o (ab_diag_block S o N w) z)) /\
  forall x y, x < es_dim S E -> y < es_dim S E ->
    entry o S [E] [E] A [x; y] = sumn o (es_dim S N) (fun z => omul o (omul o (entry o S [E] [N] v [x; z]) (vec o (ab_diag_block S o N w) z)) (oconj o (entry o S [E] [N] v [y; z]))).
Proof.
  intros K o S fuse E P A good f SR Z0 Z1 OK SD G TA EP HF G0 HER N. assert (OE : es_ok S E) by (apply (to_legs TA); now left).
  destruct (prod_ok OK OE EP) as [HP MP]. destruct (tp_ok_spec OK HP) as [OP _]. destruct (as_elementary_leg OK (es_dual E) SD OP) as (ON & DN & NM). fold N in ON, DN, NM. split; [exact DN|].
  assert (NM' : forall c, es_mult S N c = es_mult S E c) by (intros c; rewrite NM, <- MP; symmetry; exact (sector_multiplicity_spec c (sk_nodup OP) (sk_len OP))).
  exact (eigh_rows SR Z0 Z1 OK G OE TA HF G0 HER ON DN NM').
Qed.
Print Assumptions C63_eigh.

(** ** U(1) example: a leg with the charges 0, 0, 1, a dual leg with the charges 1, 0, 0, -1; only the block of charge 0 is stored, the factors have an identity for charge 1 *)
Notation tu1 := TensorProps.tu1.
Definition exC : espace := ES [[0]; [1]]%Z [2; 1] false None.
Definition exD : espace := ES [[-1]; [0]; [1]]%Z [1; 2; 1] true None.
Definition exA : list (list nat * blk Z) := [([0; 1], Blk [2; 2] [0; 2; 3; 0]%Z)].
Definition exE : list (list nat * blk Z) := [([1; 1], Blk [2; 2] [3; 0; 0; -1]%Z)].
Definition ex_qr (B : blk Z) : blk Z * blk Z := (Blk [2; 2] [0; 1; 1; 0]%Z, Blk [2; 2] [3; 0; 0; 2]%Z).
Definition ex_lq (B : blk Z) : blk Z * blk Z := (Blk [2; 2] [2; 0; 0; 3]%Z, Blk [2; 2] [0; 1; 1; 0]%Z).
Definition ex_svd (B : blk Z) : blk Z * blk Z * blk Z := (Blk [2; 2] [0; 1; 1; 0]%Z, Blk [2] [3; 2]%Z, Blk [2; 2] [1; 0; 0; 1]%Z).
Definition ex_eigh (B : blk Z) : blk Z * blk Z := (Blk [2] [-1; 3]%Z, Blk [2; 2] [0; 1; 1; 0]%Z).
Lemma ex_lex a b : (a < b)%Z -> lex_lt [a] [b].
Proof. intros H. split; [reflexivity|]. exists 0. cbn. split; [lia|]. split; [exact H|]. intros j Hj. lia. Qed.
Example C63_ex_legs : es_ok tu1 exC /\ es_ok tu1 exD.
Proof.
  split; constructor; cbn [exC exD es_def es_mults es_perm].
  - intros s [ <- |[ <- |[]]]; reflexivity.
  - repeat constructor; apply ex_lex; lia.
  - reflexivity.
  - intros m [ <- |[ <- |[]]]; lia.
  - discriminate.
  - intros s [ <- |[ <- |[ <- |[]]]]; reflexivity.
  - repeat constructor; apply ex_lex; lia.
  - reflexivity.
  - intros m [ <- |[ <- |[ <- |[]]]]; lia.
  - discriminate.
Qed.
Example C63_ex_tensors : tensor_ok tu1 [exC] [exD] exA /\ tensor_ok tu1 [exD] [exD] exE.
Proof.
  destruct C63_ex_legs as [OC OD]. split; constructor.
  - intros L [ <- |[ <- |[]]]; assumption.
  - constructor.
    + repeat constructor.
    + intros e [ <- |[]]; repeat constructor.
    + intros e [ <- |[]]; reflexivity.
    + intros e [ <- |[]]; reflexivity.
  - intros e [ <- |[]]; vm_compute; reflexivity.
  - intros L [ <- |[ <- |[]]]; assumption.
  - constructor.
    + repeat constructor.
    + intros e [ <- |[]]; repeat constructor.
    + intros e [ <- |[]]; reflexivity.
    + intros e [ <- |[]]; reflexivity.
  - intros e [ <- |[]]; vm_compute; reflexivity.
Qed.
Ltac cases z := destruct z as [|[|[|z]]]; try (exfalso; cbn in *; lia).
Ltac all_cases := intros x y Hx Hy; cases x; cases y; reflexivity.
Example C63_ex_contracts : qr_contract Zops (map snd exA) ex_qr /\ lq_contract Zops (map snd exA) ex_lq /\ svd_contract Zops (map snd exA) (fun z => 0 <= z)%Z ex_svd /\ eigh_contract Zops (map snd exE) (fun _ => True) ex_eigh /\
  (forall x y, x < es_dim tu1 exD -> y < es_dim tu1 exD -> entry Zops tu1 [exD] [exD] exE [x; y] = oconj Zops (entry Zops tu1 [exD] [exD] exE [y; x])) /\ symm_ok tu1.
Proof.
  split; [|split; [|split; [|split; [|split]]]].
  - intros m n B q r [ <- |[]] [E _] [= <- <-]. injection E as <- <-. split; [split; reflexivity|]. split; [split; reflexivity|]. split; all_cases.
  - intros m n B q r [ <- |[]] [E _] [= <- <-]. injection E as <- <-. split; [split; reflexivity|]. split; [split; reflexivity|]. split; all_cases.
  - intros m n B u s v [ <- |[]] [E _] [= <- <- <-]. injection E as <- <-. split; [split; reflexivity|]. split; [split; reflexivity|]. split; [split; reflexivity|]. split; [|split; [|split]].
    + all_cases.
    + all_cases.
    + intros z Hz. cases z; vm_compute; discriminate.
    + all_cases.
  - intros n B w v [ <- |[]] [E _] _ [= <- <-]. injection E as <-. split; [split; reflexivity|]. split; [split; reflexivity|]. split; [|split; [exact (fun _ _ => Logic.I)|]].
    + all_cases.
    + all_cases.
  - assert (ED : es_dim tu1 exD = 4) by reflexivity. rewrite ED. intros x y Hx Hy. destruct x as [|[|[|[|x]]]]; [| | | |lia]; (destruct y as [|[|[|[|y]]]]; [| | | |lia]); vm_compute; reflexivity.
  - destruct TensorProps.C31_ex_symmetries as (T & _). pose proof (to_ring T) as R.
    constructor; [apply (fr_len R)|apply (fr_dual_valid R)|apply (fr_dual_invol R)| | |intros; reflexivity]; intros a V; cbn; auto with arith.
Qed.
Example C63_ex_results : exists P Q N, new_tprod tu1 [LSpace exC] = Some P /\ new_tprod tu1 [LSpace exD] = Some Q /\ from_largest_common_subspace tu1 [tp_space P; tp_space Q] true = Some N /\
  es_decomp tu1 N = [[1]; [0]]%Z /\
  ab_qr tu1 Zops P Q exC exD N ex_qr exA = Some ([([1; 0], Blk [1; 1] [1]%Z); ([0; 1], Blk [2; 2] [0; 1; 1; 0]%Z)], [([1; 1], Blk [2; 2] [3; 0; 0; 2]%Z)]) /\
  ab_lq tu1 Zops P Q exC exD N ex_lq exA = Some ([([0; 1], Blk [2; 2] [2; 0; 0; 3]%Z)], [([0; 0], Blk [1; 1] [1]%Z); ([1; 1], Blk [2; 2] [0; 1; 1; 0]%Z)]) /\
  ab_svd tu1 Zops P Q exC exD N ex_svd exA = Some ([([1; 0], Blk [1; 1] [1]%Z); ([0; 1], Blk [2; 2] [0; 1; 1; 0]%Z)], [([1; 1], Blk [2] [3; 2]%Z)], [([0; 0], Blk [1; 1] [1]%Z); ([1; 1], Blk [2; 2] [1; 0; 0; 1]%Z)]) /\
  ab_eigh Zops exD ex_eigh exE = ([([1; 1], Blk [2] [-1; 3]%Z)], [([0; 0], Blk [1; 1] [1]%Z); ([1; 1], Blk [2; 2] [0; 1; 1; 0]%Z); ([2; 2], Blk [1; 1] [1]%Z)]).
Proof. do 3 eexists. split; [vm_compute; reflexivity|]. split; [vm_compute; reflexivity|]. split; [vm_compute; reflexivity|]. repeat split; vm_compute; reflexivity. Qed.
