(* C13: SU(N) sectors, duals, dimensions and table keys.  src/symmetries/factors/sun.cpp
   Specification: [weight N a] — a has N entries, is non-increasing, ends in 0 (and fits in int16);
   [weyl_num] / [weyl_den] — numerator and denominator of the Weyl dimension formula,
   products over the pairs 1 <= k < l <= N of (a_k - a_l + l - k) and (l - k). *)
From Coq Require Import String List ZArith Lia Bool.
From Verif Require Import SymModel SunModel SunProofs SunIndex.
Import ListNotations.
Open Scope Z_scope.

Theorem C13_valid_iff_normalised_weight : forall N a, (2 <= N)%nat ->
  (sun_valid N a = true <->
   length a = N /\ (forall i j, (i <= j < N)%nat -> nth j a 0 <= nth i a 0) /\ nth (N - 1) a 0 = 0 /\ nth 0 a 0 < 32768).
Proof. intros N a H. apply (@sun_valid_weight N a). lia. Qed.
Print Assumptions C13_valid_iff_normalised_weight.
Example C13_valid_ex : sun_valid 3 [2; 1; 0] = true /\ sun_valid 3 [1; 2; 0] = false /\ sun_valid 3 [2; 1; 1] = false. Proof. repeat split. Qed.

Theorem C13_dual : forall N a, (2 <= N)%nat -> sun_valid N a = true ->
  sun_valid N (sun_dual a) = true /\ sun_dual (sun_dual a) = a /\
  (forall i, (i < N)%nat -> nth i (sun_dual a) 0 = nth 0 a 0 - nth (N - 1 - i) a 0).
Proof.
  intros N a H V. assert (HN : (1 <= N)%nat) by lia. apply (sun_valid_weight a HN) in V.
  split; [apply sun_valid_weight; [exact HN | apply sun_dual_weight; assumption]|].
  split; [apply (sun_dual_involutive HN V) | intros i L; apply sun_dual_nth; assumption].
Qed.
Print Assumptions C13_dual.
Theorem C13_dual_of_trivial : forall N, sun_dual (zeros_sector N) = zeros_sector N.
Proof. exact sun_dual_zeros. Qed.
Print Assumptions C13_dual_of_trivial.
Example C13_dual_ex : sun_dual [3; 1; 0; 0] = [3; 3; 2; 0] /\ sun_valid 4 [3; 1; 0; 0] = true. Proof. split; reflexivity. Qed.

(* The exact Weyl dimension is the same for a sector and its dual, for all N. *)
Theorem C13_weyl_dimension_of_dual : forall N a, (2 <= N)%nat -> sun_valid N a = true -> weyl_num N (sun_dual a) = weyl_num N a.
Proof. intros N a H V. assert (HN : (1 <= N)%nat) by lia. apply weyl_num_dual; [exact HN | apply sun_valid_weight; assumption]. Qed.
Print Assumptions C13_weyl_dimension_of_dual.

(* For N = 2 and N = 3 the floating point computation of sector_dim is exact for every valid sector. *)
Theorem C13_dimension_exact_for_N_2_and_3_partial : forall N a, N = 2%nat \/ N = 3%nat -> sun_valid N a = true ->
  sun_dim N a * weyl_den N = weyl_num N a /\ sun_dim N (sun_dual a) = sun_dim N a.
Proof.
  assert (K : forall N a, N = 2%nat \/ N = 3%nat -> sun_valid N a = true -> sun_dim N a * weyl_den N = weyl_num N a).
  { intros N a [ -> | -> ] V.
    - apply sun_valid_weight in V; [|lia]. rewrite (sun_dim_2 V). destruct V as (HL & _ & H0 & _).
      unfold weyl_num, weyl_den. cbn [ordered_pairs seq list_prod map filter fst snd Nat.ltb Nat.leb app Nat.sub zprod fold_right Z.of_nat Pos.of_succ_nat Pos.succ].
      cbn in H0. rewrite H0. cbn. lia.
    - apply sun_valid_weight in V; [|lia]. assert (E := sun_dim_3 V). destruct V as (HL & _ & H0 & _). cbn in H0.
      unfold weyl_num, weyl_den. cbn [ordered_pairs seq list_prod map filter fst snd Nat.ltb Nat.leb app Nat.sub zprod fold_right Z.of_nat Pos.of_succ_nat Pos.succ].
      rewrite H0. cbn - [Z.mul Z.add Z.sub]. lia. }
  intros N a HN V. split; [apply K; assumption|].
  assert (HN2 : (2 <= N)%nat) by (destruct HN; lia). destruct (C13_dual N a HN2 V) as (V' & _ & _).
  pose proof (K N a HN V). pose proof (K N _ HN V'). pose proof (C13_weyl_dimension_of_dual N a HN2 V). pose proof (weyl_den_pos N). nia.
Qed.
Print Assumptions C13_dimension_exact_for_N_2_and_3_partial.
Example C13_dimension_ex : sun_valid 3 [4; 2; 0] = true /\ sun_dim 3 [4; 2; 0] = 27. Proof. split; vm_compute; reflexivity. Qed.

(* DEFECT: for every other N that the constructor accepts, truncating the accumulated double gives a wrong dimension
   for some small sector; e.g. SU(4): the 35-dimensional irrep [4,0,0,0] gets dimension 34. *)
Theorem C13_float_dimension_refuted : forall N, sun_constructible N = true -> (4 <= N)%nat ->
  exists a, sun_valid N a = true /\ sun_dim N a * weyl_den N <> weyl_num N a.
Proof.
  intros N H L. unfold sun_constructible in H. apply andb_true_iff in H as [_ H]. apply Nat.leb_le in H.
  assert (C : N = 4%nat \/ N = 5%nat \/ N = 6%nat \/ N = 7%nat) by lia. destruct C as [ -> |[ -> |[ -> | -> ]]].
  - exists [4; 0; 0; 0]. vm_compute. split; congruence.
  - exists [2; 2; 0; 0; 0]. vm_compute. split; congruence.
  - exists [2; 1; 1; 0; 0; 0]. vm_compute. split; congruence.
  - exists [2; 1; 0; 0; 0; 0; 0]. vm_compute. split; congruence.
Qed.
Print Assumptions C13_float_dimension_refuted.
Example C13_float_ex : sun_dim 4 [4; 0; 0; 0] = 34 /\ weyl_num 4 [4; 0; 0; 0] = 35 * weyl_den 4. Proof. split; vm_compute; reflexivity. Qed.

(* The irrep index is injective: it enumerates valid sectors without collisions (exact integers; int64 overflow excluded). *)
Theorem C13_irrep_index_injective : forall N a b, (2 <= N)%nat -> sun_valid N a = true -> sun_valid N b = true ->
  S_index N a = S_index N b -> a = b.
Proof. intros N a b H Va Vb. apply S_index_inj; apply sun_valid_weight; assumption || lia. Qed.
Print Assumptions C13_irrep_index_injective.
Example C13_irrep_index_ex : map (S_index 3) [[0;0;0]; [1;0;0]; [1;1;0]; [2;0;0]; [2;1;0]] = [0; 1; 2; 3; 4]. Proof. reflexivity. Qed.

(* The path of a pair of sectors in the coefficient files determines N and both sectors ... *)
Theorem C13_table_path_injective : forall N N' a b a' b',
  sun_valid (Z.to_nat N) a = true -> sun_valid (Z.to_nat N) b = true -> (2 <= N) ->
  length a' = length a -> length b' = length a ->
  cg_key N a b = cg_key N' a' b' -> N = N' /\ a = a' /\ b = b'.
Proof.
  intros N N' a b a' b' Va Vb H L1 L2 E. apply sun_valid_weight in Va; [|lia]. apply sun_valid_weight in Vb; [|lia].
  assert (L3 := proj1 Va). assert (L4 := proj1 Vb). apply cg_key_inj; try congruence. intros ->. cbn in L3. lia.
Qed.
Print Assumptions C13_table_path_injective.
Example C13_table_path_ex : cg_key 3 [2; 1; 0] [1; 0; 0] = "/N_3/2/1/0/1/0/0/"%string. Proof. reflexivity. Qed.

(* ... but DEFECT: the key of the fusion outcome inside it does not: entries are concatenated without a separator. *)
Theorem C13_irrep_key_ambiguous_refuted : exists a b, sun_valid 3 a = true /\ sun_valid 3 b = true /\ a <> b /\ irrep_key a = irrep_key b.
Proof. exists [12; 11; 0], [121; 1; 0]. repeat split; [discriminate]. Qed.
Print Assumptions C13_irrep_key_ambiguous_refuted.
