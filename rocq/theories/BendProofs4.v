(** Applying instructions and then the opposite ones in the opposite order. *)
From Verif Require Import Util RowModel RowProofs GridModel GridProofs SymModel SymProofs CatSpec Sums StarMat SpaceModel SpaceSpec PipeModel PipeProofs4 TreeModel TreeProofs TreeProofs3 TreeProofs4 TreeProofs5 TreeProofs7 TreeProofs8 TensorModel TensorSpec TensorProofs5 BlockModel BlockProofs
  SparseModel ConvertModel ConvertSpec FtOpsModel MappingModel MappingProofs PermLegsModel PermLegsSpec MoveModel FtMapModel FtMapSpec FtMapProofs FtMapProofs3 FtMapProofs7 FtMapProofs9 FtMapProofs10 FtMapProofs11 FtMapProofs17 FtMapProps BendSpec BendProofs BendProofs2 BendProofs3.
Set Implicit Arguments. Unset Strict Implicit.
Open Scope nat_scope.

Section Back.
  Variables (J Kn : nat) (ci di : list nat).
  Hypothesis PM : is_perm (J + Kn) (leg_order ci di).
  Definition unname (k : nat) : nat := nth k (inverse_permutation (leg_order ci di)) 0.
  Lemma unname_renamed k : k < J + Kn -> unname (renamed ci di k) = k.
  Proof. intros H. unfold unname, renamed. apply (inverse_permutation_l PM H). Qed.
  Lemma renamed_unname k : k < J + Kn -> renamed ci di (unname k) = k.
  Proof. intros H. unfold unname, renamed. apply (inverse_permutation_r PM H). Qed.
  Lemma unname_ci : map unname ci = seq 0 (length ci) /\ map unname di = rev (seq (length ci) (length di)).
  Proof.
    assert (LN := is_perm_length PM). unfold leg_order in LN. rewrite app_length, rev_length in LN. destruct (renamed_legs ci di) as [R1 R2].
    split.
    - rewrite <- R1 at 1. rewrite map_map. transitivity (map (fun k => k) (seq 0 (length ci))); [|apply map_id]. apply map_ext_in. intros k I. apply in_seq in I. apply unname_renamed. lia.
    - rewrite <- R2 at 1. rewrite map_map. transitivity (map (fun k => k) (rev (seq (length ci) (length di)))); [|apply map_id]. apply map_ext_in. intros k I. apply in_rev in I. apply in_seq in I. apply unname_renamed. lia.
  Qed.
  Lemma back_exec l ev : exec (legs0 J Kn) l = Some ((ci, di), ev) -> exists ev', exec (legs0 (length ci) (length di)) (map invert (rev l)) = Some ((map unname (seq 0 J), map unname (rev (seq J Kn))), ev').
  Proof.
    intros E. destruct (exec_back E) as [e E']. destruct (exec_map unname E') as [ev' H]. destruct unname_ci as [U1 U2]. rewrite U1, U2 in H. exists ev'. exact H.
  Qed.
  Lemma back_names : map (renamed ci di) (map unname (seq 0 J)) = seq 0 J /\ map (renamed ci di) (map unname (rev (seq J Kn))) = rev (seq J Kn).
  Proof.
    split; rewrite map_map; match goal with |- _ = ?r => transitivity (map (fun k => k) r); [|apply map_id] end; apply map_ext_in; intros k I; [|apply in_rev in I]; apply in_seq in I; apply renamed_unname; lia.
  Qed.
  Lemma back_products P Q P' Q' : J = length (tp_flat_legs P) -> Kn = length (tp_flat_legs Q) -> permuted_products ci di P Q P' Q' -> permuted_products (map unname (seq 0 J)) (map unname (rev (seq J Kn))) P' Q' P Q.
  Proof.
    intros EJ EK [LC H]. split; [now rewrite map_length, seq_length|]. unfold permuted_legs in *. rewrite leg_order_map. unfold leg_order at 1. rewrite rev_involutive, <- seq_app.
    assert (E : map unname (seq 0 (J + Kn)) = inverse_permutation (leg_order ci di)). { rewrite <- (take_seq 0 (inverse_permutation (leg_order ci di))). unfold take. rewrite inverse_permutation_length, (is_perm_length PM). reflexivity. }
    cbn [Nat.add] in E. change (0 + J) with J in *. rewrite E. symmetry. apply take_inv_unique; [|exact H]. rewrite app_length, rev_length, map_length, <- EJ, <- EK. exact PM.
  Qed.
End Back.
