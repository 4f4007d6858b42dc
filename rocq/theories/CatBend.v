(** The snake-type identity of the B symbols follows from the pentagon equation and the unitarity of F. *)
From Verif Require Import Util RowModel RowProofs SymModel SymProofs CatSpec Sums StarMat.
Set Implicit Arguments. Unset Strict Implicit.
Open Scope nat_scope.

(** ** index sets: triples (h, s, l) with bounds that depend on h *)
Definition idx (L : list sector) (n m : sector -> nat) : list (sector * nat * nat) :=
  flat_map (fun h => flat_map (fun s => map (fun l => (h, s, l)) (seq 0 (m h))) (seq 0 (n h))) L.
Lemma In_idx L n m h s l : In (h, s, l) (idx L n m) <-> In h L /\ s < n h /\ l < m h.
Proof.
  unfold idx. rewrite in_flat_map. split.
  - intros (h' & Ih & I). apply in_flat_map in I. destruct I as (s' & Is & I). apply in_map_iff in I. destruct I as (l' & E & Il). injection E as <- <- <-. apply in_seq in Is. apply in_seq in Il. split; [exact Ih|lia].
  - intros (Ih & Hs & Hl). exists h. split; [exact Ih|]. apply in_flat_map. exists s. split; [apply in_seq; lia|]. apply in_map_iff. exists l. split; [reflexivity|apply in_seq; lia].
Qed.
Lemma NoDup_idx L n m : NoDup L -> NoDup (idx L n m).
Proof.
  intros ND. unfold idx. apply NoDup_flat_map; [exact ND| |].
  - intros h _. apply NoDup_flat_map; [apply seq_NoDup| |].
    + intros s _. apply FinFun.Injective_map_NoDup; [|apply seq_NoDup]. intros x y E. congruence.
    + intros s s' x _ _ I I'. apply in_map_iff in I. apply in_map_iff in I'. destruct I as (? & <- & _), I' as (? & E & _). congruence.
  - intros h h' x _ _ I I'. apply in_flat_map in I. apply in_flat_map in I'. destruct I as (? & _ & I), I' as (? & _ & I'). apply in_map_iff in I. apply in_map_iff in I'. destruct I as (? & <- & _), I' as (? & E & _). congruence.
Qed.
Definition tri_eqb (x y : sector * nat * nat) : bool := row_eqb (fst (fst x)) (fst (fst y)) && (snd (fst x) =? snd (fst y)) && (snd x =? snd y).
Lemma tri_eqb_eq x y : tri_eqb x y = true <-> x = y.
Proof.
  destruct x as [[h s] l], y as [[h' s'] l']. unfold tri_eqb. cbn [fst snd]. rewrite !andb_true_iff, row_eqb_eq, !Nat.eqb_eq. split; [intros [[-> ->] ->]; reflexivity|]. intros [= -> -> ->]. auto.
Qed.

Section Bend.
  Variable S : symmetry.
  Hypothesis RING : fusion_ring S.
  Variable K : Type.
  Variable o : ops K.
  Hypothesis ST : star_laws o.
  Variable F : Fsym K.
  Variables fs qd : sector -> K.
  Hypothesis PENT : pentagon S o F.
  Hypothesis UNI : F_unitary S o F.
  Hypothesis TRIV : F_trivial S o F.
  Hypothesis FQ : FS_qdim S o F fs qd.
  Notation SR := (st_semi ST).
  Add Ring Kr : SR.
  Notation "x ** y" := (omul o x y) (at level 40, left associativity).
  Notation "x ++' y" := (oadd o x y) (at level 50, left associativity).
  Notation sum := (osum o).
  Notation conj := (oconj o).
  Notation N := (n_symbol S).
  Notation out := (sym_outcomes S).
  Notation valid a := (sym_valid S a = true).
  Notation one := (sym_trivial S).
  Notation dual := (sym_dual S).

  Lemma idx_sum L n m (f : sector * nat * nat -> K) : sum (map f (idx L n m)) = sum (map (fun h => sumn o (n h) (fun s => sumn o (m h) (fun l => f (h, s, l)))) L).
  Proof.
    unfold idx. rewrite (sum_flat_map SR). apply sum_ext. intros h _. rewrite (sum_flat_map SR). unfold sumn. apply sum_ext. intros s _. now rewrite map_map.
  Qed.
  (** an isometry keeps norms, and its adjoint picks components *)
  Section Iso.
    Variables (X Y : Type) (eqb : X -> X -> bool) (EB : forall x y, eqb x y = true <-> x = y).
    Variables (I : list X) (J : list Y) (M : X -> Y -> K).
    Hypothesis NI : NoDup I.
    Hypothesis G : forall i i', In i I -> In i' I -> sum (map (fun j => M i j ** conj (M i' j)) J) = if eqb i i' then o1 o else o0 o.
    Lemma iso_pick (x : X -> K) i' : In i' I -> sum (map (fun j => sum (map (fun i => M i j ** x i) I) ** conj (M i' j)) J) = x i'.
    Proof.
      intros Hi. transitivity (sum (map (fun i => x i ** (if eqb i i' then o1 o else o0 o)) I)).
      - transitivity (sum (map (fun j => sum (map (fun i => M i j ** x i ** conj (M i' j)) I)) J)).
        + apply sum_ext. intros j _. symmetry. apply (sum_mul_r SR (conj (M i' j)) (fun i => M i j ** x i)).
        + rewrite (sum_swap SR). apply sum_ext. intros i Ii. rewrite <- (G Ii Hi). rewrite <- (sum_mul_l SR). apply sum_ext. intros j _. ring.
      - rewrite (sum_single SR (x := i')); [|exact NI|exact Hi|].
        + replace (eqb i' i') with true by (symmetry; now apply EB). ring.
        + intros y _ NE. destruct (eqb y i') eqn:E; [apply EB in E; congruence|ring].
    Qed.
    Lemma iso_norm (x : X -> K) : sum (map (fun j => sum (map (fun i => M i j ** x i) I) ** conj (sum (map (fun i => M i j ** x i) I))) J) = sum (map (fun i => x i ** conj (x i)) I).
    Proof.
      transitivity (sum (map (fun i' => conj (x i') ** sum (map (fun j => sum (map (fun i => M i j ** x i) I) ** conj (M i' j)) J)) I)).
      - transitivity (sum (map (fun j => sum (map (fun i' => conj (x i') ** (sum (map (fun i => M i j ** x i) I) ** conj (M i' j))) I)) J)).
        + apply sum_ext. intros j _. rewrite (conj_sum ST), <- (sum_mul_l SR). apply sum_ext. intros i' _. rewrite (st_mul ST). ring.
        + rewrite (sum_swap SR). apply sum_ext. intros i' _. now rewrite <- (sum_mul_l SR).
      - apply sum_ext. intros i' Hi. rewrite iso_pick by exact Hi. ring.
    Qed.
  End Iso.

  (** ** fusion rules *)
  Lemma N_In a b c n : n < N a b c -> In c (out a b).
  Proof. intros H. destruct (in_dec (list_eq_dec Z.eq_dec) c (out a b)) as [I|I]; [exact I|]. rewrite (n_symbol_notIn I) in H. lia. Qed.
  Lemma N_pos a b c : valid a -> valid b -> In c (out a b) -> 0 < N a b c.
  Proof. intros Va Vb I. rewrite (n_symbol_In I). now apply (fr_pos RING). Qed.
  Lemma fuses_In a b c : can_fuse_to S a b c = true <-> In c (out a b).
  Proof. apply can_fuse_to_In. Qed.
  Lemma count_single (L : list sector) (f : sector -> nat) x : NoDup L -> In x L -> (forall y, In y L -> y <> x -> f y = 0) -> nsum (map f L) = f x.
  Proof.
    induction L as [|y L IH]; intros ND I H; [easy|]. inversion ND as [|? ? NI ND']; subst. cbn [map nsum fold_right]. destruct I as [->|I].
    - assert (Z : nsum (map f L) = 0). { clear IH ND' ND. induction L as [|w L IH]; [reflexivity|]. cbn [map nsum fold_right]. rewrite H; [|right; now left|intros ->; apply NI; now left]. apply IH; [intros J; apply NI; now right|]. intros y [->|I] NE; apply H; auto; [now left|right; now right]. }
      unfold nsum in Z. rewrite Z. lia.
    - rewrite (H y); [|now left|intros ->; contradiction]. apply IH; auto. intros w Iw. apply H. now right.
  Qed.
  Lemma count_zero (L : list sector) (f : sector -> nat) : (forall y, In y L -> f y = 0) -> nsum (map f L) = 0.
  Proof. induction L as [|y L IH]; intros H; [reflexivity|]. cbn [map nsum fold_right]. rewrite (H y) by now left. apply IH. intros w Iw. apply H. now right. Qed.
  Lemma N_unit_l a c : valid a -> N one a c = if row_eqb c a then 1 else 0.
  Proof.
    intros Va. destruct (fr_unit RING Va) as [E1 E2]. destruct (row_eqb c a) eqn:E; [apply row_eqb_eq in E; now subst|]. apply n_symbol_notIn. rewrite E1. intros [->|[]]. assert (X := proj2 (row_eqb_eq c c) eq_refl). congruence.
  Qed.
  Lemma N_unit_r a : valid a -> N a one a = 1.
  Proof. intros Va. rewrite (fr_comm RING Va (fr_trivial_valid RING) Va). apply (fr_unit RING Va). Qed.
  Lemma In_unit_r a : valid a -> In a (out a one).
  Proof. intros Va. apply (N_In (n := 0)). rewrite N_unit_r by exact Va. lia. Qed.
  Lemma N_dual a : valid a -> N a (dual a) one = 1.
  Proof. intros Va. rewrite (fr_dual RING Va (fr_dual_valid RING Va)). now rewrite (proj2 (row_eqb_eq _ _) eq_refl). Qed.
  Lemma N_dual' a : valid a -> N (dual a) a one = 1.
  Proof. intros Va. rewrite (fr_comm RING (fr_dual_valid RING Va) Va (fr_trivial_valid RING)). now apply N_dual. Qed.
  Lemma In_dual a : valid a -> In one (out a (dual a)).
  Proof. intros Va. apply (N_In (n := 0)). rewrite N_dual by exact Va. lia. Qed.
  Lemma In_dual' a : valid a -> In one (out (dual a) a).
  Proof. intros Va. apply (N_In (n := 0)). rewrite N_dual' by exact Va. lia. Qed.
  (** Frobenius reciprocity *)
  Lemma N_rotate g z c : valid g -> valid z -> valid c -> N g z c = N c (dual z) g.
  Proof.
    intros Vg Vz Vc. assert (Vcb := fr_dual_valid RING Vc). assert (Vgb := fr_dual_valid RING Vg). assert (Vzb := fr_dual_valid RING Vz).
    assert (DI : forall x y, valid x -> valid y -> dual x = dual y -> x = y). { intros x y Vx Vy E. rewrite <- (fr_dual_invol RING Vx), <- (fr_dual_invol RING Vy). now f_equal. }
    assert (A := fr_assoc RING Vg Vz Vcb (fr_trivial_valid RING)). unfold left_count, right_count in A.
    assert (L : nsum (map (fun e => N g z e * N e (dual c) one) (out g z)) = N g z c).
    { destruct (in_dec (list_eq_dec Z.eq_dec) c (out g z)) as [I|I].
      - rewrite (@count_single (out g z) _ c); [rewrite N_dual by exact Vc; lia|now apply (fr_nodup RING)|exact I|]. intros y Iy NE. assert (Vy := fr_closed RING Vg Vz Iy). rewrite (fr_dual RING Vy Vcb). destruct (row_eqb (dual c) (dual y)) eqn:E; [|lia]. apply row_eqb_eq in E. exfalso. apply NE. symmetry. now apply DI.
      - rewrite (n_symbol_notIn I). apply count_zero. intros y Iy. assert (Vy := fr_closed RING Vg Vz Iy). rewrite (fr_dual RING Vy Vcb). destruct (row_eqb (dual c) (dual y)) eqn:E; [|lia]. apply row_eqb_eq in E. assert (c = y) by now apply DI. subst. contradiction. }
    assert (R : nsum (map (fun f => N z (dual c) f * N g f one) (out z (dual c))) = N z (dual c) (dual g)).
    { destruct (in_dec (list_eq_dec Z.eq_dec) (dual g) (out z (dual c))) as [I|I].
      - rewrite (@count_single (out z (dual c)) _ (dual g)); [rewrite N_dual by exact Vg; lia|now apply (fr_nodup RING)|exact I|]. intros y Iy NE. assert (Vy := fr_closed RING Vz Vcb Iy). rewrite (fr_dual RING Vg Vy). destruct (row_eqb y (dual g)) eqn:E; [|lia]. apply row_eqb_eq in E. congruence.
      - rewrite (n_symbol_notIn I). apply count_zero. intros y Iy. assert (Vy := fr_closed RING Vz Vcb Iy). rewrite (fr_dual RING Vg Vy). destruct (row_eqb y (dual g)) eqn:E; [|lia]. apply row_eqb_eq in E. subst. contradiction. }
    rewrite L, R in A. rewrite A. rewrite <- (fr_dual_n RING Vz Vcb Vgb), (fr_dual_invol RING Vc), (fr_dual_invol RING Vg). now apply (fr_comm RING).
  Qed.

  Section Labels.
    Variables a z c : sector.
    Hypothesis Va : valid a.
    Hypothesis Vz : valid z.
    Hypothesis Ic : In c (out a z).
    Notation zb := (dual z).
    Lemma Vc : valid c. Proof. exact (fr_closed RING Va Vz Ic). Qed.
    Lemma Vzb : valid zb. Proof. exact (fr_dual_valid RING Vz). Qed.
    Variable kap : nat.
    Hypothesis Hkap : kap < N a z c.
    Definition amp_A (g : sector) (rho : nat) (r : sector * nat * nat) : K :=
      let '(h, s, l) := r in sumn o (N h z z) (fun w => F a h z c z g w kap l rho ** F z zb z z one h 0 0 s w).
    Definition amp_W (g : sector) (nu rho : nat) : K := F c zb z c one g 0 0 nu rho.
    Definition rows_of (g : sector) := idx (out z zb) (fun h => N z zb h) (fun h => N a h g).
    Definition cols_of (g : sector) := idx (out a z) (fun f => N a z f) (fun f => N f zb g).
    Definition amp_M (g : sector) (r j : sector * nat * nat) : K := let '(h, s, l) := r in let '(f, mu, nu) := j in F a z zb g h f s l mu nu.
    Definition amp_Z (g : sector) (rho : nat) (j : sector * nat * nat) : K := sum (map (fun r => amp_M g r j ** amp_A g rho r) (rows_of g)).
    Lemma G_facts g : In g (out c zb) -> valid g /\ In c (out g z).
    Proof.
      intros I. assert (Vg := fr_closed RING Vc Vzb I). split; [exact Vg|]. apply (N_In (n := 0)). rewrite (N_rotate Vg Vz Vc). apply (N_pos Vc Vzb I).
    Qed.
    Lemma rows_NoDup g : NoDup (rows_of g). Proof. apply NoDup_idx. apply (fr_nodup RING Vz Vzb). Qed.
    Lemma cols_NoDup g : NoDup (cols_of g). Proof. apply NoDup_idx. apply (fr_nodup RING Va Vz). Qed.

    Lemma gram g : valid g -> forall i i', In i (rows_of g) -> In i' (rows_of g) -> sum (map (fun j => amp_M g i j ** conj (amp_M g i' j)) (cols_of g)) = if tri_eqb i i' then o1 o else o0 o.
    Proof.
      intros Vg [[h s] l] [[h' s'] l'] I I'. apply In_idx in I. apply In_idx in I'. destruct I as (Ih & Hs & Hl), I' as (Ih' & Hs' & Hl').
      unfold cols_of. rewrite idx_sum. unfold amp_M. assert (U := UNI Va Vz Vzb Ih (N_In Hl) Ih' (proj2 (fuses_In _ _ _) (N_In Hl')) Hs Hl Hs' Hl'). unfold F_gram in U. exact U.
    Qed.
    (** the pentagon equation with j = 1, f = c *)
    Lemma pent g mu nu rho : In g (out c zb) -> mu < N a z c -> nu < N c zb g -> rho < N g z c -> amp_Z g rho (c, mu, nu) = if kap =? mu then amp_W g nu rho else o0 o.
    Proof.
      intros Ig Hmu Hnu Hrho. destruct (G_facts Ig) as [Vg Icg]. assert (VC := Vc). assert (VZ := Vzb).
      assert (P := PENT Va Vz VZ Vz Ic Ig Icg (In_dual' Vz) (proj2 (fuses_In _ _ _) (In_unit_r VC)) (In_unit_r Vz) (proj2 (fuses_In _ _ _) Ic)).
      specialize (P mu nu kap rho 0 0 Hmu Hnu Hkap Hrho). rewrite N_dual', N_unit_r in P by exact Vz. specialize (P ltac:(lia) ltac:(lia)). unfold pentagon_lhs, pentagon_rhs in P. rewrite N_unit_r in P by exact VC.
      unfold amp_Z, rows_of. rewrite idx_sum. unfold amp_M, amp_A.
      transitivity (sum (map (fun h => sumn o (N z zb h) (fun s => sumn o (N a h g) (fun l => sumn o (N h z z) (fun w => F a z zb g h c s l mu nu ** (F a h z c z g w kap l rho ** F z zb z z one h 0 0 s w))))) (out z zb))).
      { apply sum_ext. intros h _. unfold sumn. apply sum_ext. intros s _. apply sum_ext. intros l _. symmetry. apply (sum_mul_l SR). }
      rewrite <- P. unfold sumn. cbn [seq map]. rewrite sum_cons, sum_nil. unfold amp_W.
      assert (T := @TRIV a z one Va Vz (fr_trivial_valid RING) (or_intror (or_intror eq_refl)) z (In_unit_r Vz) c Ic c Ic (proj2 (fuses_In _ _ _) (In_unit_r VC)) 0 kap mu 0).
      rewrite !N_unit_r in T by assumption. specialize (T ltac:(lia) Hkap Hmu ltac:(lia)). rewrite T. cbn [Nat.mul Nat.add]. rewrite Nat.mul_1_r, Nat.add_0_r. destruct (kap =? mu); ring.
    Qed.
    (** norms *)
    Lemma norm_W : sum (map (fun t => let '(g, nu, rho) := t in amp_W g nu rho ** conj (amp_W g nu rho)) (idx (out c zb) (fun g => N c zb g) (fun g => N g z c))) = o1 o.
    Proof.
      assert (VC := Vc). assert (VZ := Vzb). rewrite idx_sum. assert (U := UNI VC VZ Vz (In_dual' Vz) (In_unit_r VC) (In_dual' Vz) (proj2 (fuses_In _ _ _) (In_unit_r VC))).
      specialize (U 0 0 0 0). rewrite N_dual', N_unit_r in U by assumption. specialize (U ltac:(lia) ltac:(lia) ltac:(lia) ltac:(lia)). rewrite (proj2 (row_eqb_eq _ _) eq_refl) in U. exact U.
    Qed.
    Lemma norm_y : sum (map (fun h => sumn o (N z zb h) (fun s => sumn o (N h z z) (fun w => F z zb z z one h 0 0 s w ** conj (F z zb z z one h 0 0 s w)))) (out z zb)) = o1 o.
    Proof.
      assert (VZ := Vzb). assert (U := UNI Vz VZ Vz (In_dual' Vz) (In_unit_r Vz) (In_dual' Vz) (proj2 (fuses_In _ _ _) (In_unit_r Vz))).
      specialize (U 0 0 0 0). rewrite N_dual', N_unit_r in U by assumption. specialize (U ltac:(lia) ltac:(lia) ltac:(lia) ltac:(lia)). rewrite (proj2 (row_eqb_eq _ _) eq_refl) in U. exact U.
    Qed.
    Lemma norm_A : sum (map (fun g => sumn o (N g z c) (fun rho => sum (map (fun r => amp_A g rho r ** conj (amp_A g rho r)) (rows_of g)))) (out c zb)) = o1 o.
    Proof.
      assert (VC := Vc). assert (VZ := Vzb). rewrite <- norm_y.
      (* exchange the sums *)
      transitivity (sum (map (fun h => sumn o (N z zb h) (fun s => sum (map (fun g => sumn o (N a h g) (fun l => sumn o (N g z c) (fun rho => amp_A g rho (h, s, l) ** conj (amp_A g rho (h, s, l))))) (out c zb)))) (out z zb))).
      { transitivity (sum (map (fun g => sum (map (fun h => sumn o (N z zb h) (fun s => sumn o (N a h g) (fun l => sumn o (N g z c) (fun rho => amp_A g rho (h, s, l) ** conj (amp_A g rho (h, s, l)))))) (out z zb))) (out c zb))).
        - apply sum_ext. intros g _. unfold rows_of, sumn.
          transitivity (sum (map (fun rho => sum (map (fun h => sum (map (fun s => sum (map (fun l => amp_A g rho (h, s, l) ** conj (amp_A g rho (h, s, l))) (seq 0 (N a h g)))) (seq 0 (N z zb h)))) (out z zb))) (seq 0 (N g z c)))).
          { apply sum_ext. intros rho _. rewrite idx_sum. reflexivity. }
          rewrite (sum_swap SR). apply sum_ext. intros h _. rewrite (sum_swap SR). apply sum_ext. intros s _. apply (sum_swap SR).
        - rewrite (sum_swap SR). apply sum_ext. intros h _. unfold sumn. apply (sum_swap SR). }
      apply sum_ext. intros h Ih. assert (Vh := fr_closed RING Vz VZ Ih). unfold sumn at 1 4. apply sum_ext. intros s _.
      (* columns of F a h z c *)
      transitivity (sum (map (fun t : sector * nat * nat => let '(g, l, rho) := t in amp_A g rho (h, s, l) ** conj (amp_A g rho (h, s, l))) (idx (out c zb) (fun g => N a h g) (fun g => N g z c)))).
      { rewrite idx_sum. reflexivity. }
      rewrite (sum_perm SR (b := map (fun t : sector * nat * nat => let '(g, l, rho) := t in amp_A g rho (h, s, l) ** conj (amp_A g rho (h, s, l))) (idx (out a h) (fun g => N a h g) (fun g => N g z c)))).
      2:{ apply Permutation_map. apply NoDup_Permutation; [apply NoDup_idx; apply (fr_nodup RING VC VZ)|apply NoDup_idx; apply (fr_nodup RING Va Vh)|]. intros [[g l] rho]. rewrite !In_idx. split.
          - intros (I & H1 & H2). split; [exact (N_In H1)|auto].
          - intros (I & H1 & H2). split; [|auto]. assert (Vg := fr_closed RING Va Vh I). apply (N_In (n := rho)). rewrite <- (N_rotate Vg Vz VC). exact H2. }
      assert (GR : forall i i', In i (seq 0 (N h z z)) -> In i' (seq 0 (N h z z)) -> sum (map (fun t : sector * nat * nat => let '(g, l, rho) := t in F a h z c z g i kap l rho ** conj (F a h z c z g i' kap l rho)) (idx (out a h) (fun g => N a h g) (fun g => N g z c))) = if i =? i' then o1 o else o0 o).
      { intros i i' Hi Hi'. apply in_seq in Hi. apply in_seq in Hi'. destruct Hi as [_ Hi], Hi' as [_ Hi']. cbn in Hi, Hi'. rewrite idx_sum. assert (U := UNI Va Vh Vz (N_In Hi) Ic (N_In Hi) (proj2 (fuses_In _ _ _) Ic) Hi Hkap Hi' Hkap). unfold F_gram in U. rewrite U, (proj2 (row_eqb_eq _ _) eq_refl), Nat.eqb_refl. cbn [andb]. now rewrite andb_true_r. }
      set (Mx := fun (w : nat) (t : sector * nat * nat) => let '(g, l, rho) := t in F a h z c z g w kap l rho).
      assert (IN := @iso_norm nat (sector * nat * nat) Nat.eqb Nat.eqb_eq (seq 0 (N h z z)) (idx (out a h) (fun g => N a h g) (fun g => N g z c)) Mx (seq_NoDup _ _)).
      specialize (IN ltac:(intros i i' Hi Hi'; rewrite <- (GR i i' Hi Hi'); apply sum_ext; intros [[g l] rho] _; reflexivity) (fun w => F z zb z z one h 0 0 s w)).
      unfold sumn. rewrite <- IN. apply sum_ext. intros [[g l] rho] _. reflexivity.
    Qed.
    Lemma norm_Z : sum (map (fun g => sumn o (N g z c) (fun rho => sum (map (fun j => amp_Z g rho j ** conj (amp_Z g rho j)) (cols_of g)))) (out c zb)) = o1 o.
    Proof.
      rewrite <- norm_A. apply sum_ext. intros g Ig. destruct (G_facts Ig) as [Vg _]. unfold sumn. apply sum_ext. intros rho _. unfold amp_Z.
      apply (@iso_norm _ _ tri_eqb tri_eqb_eq (rows_of g) (cols_of g) (amp_M g) (rows_NoDup g) (gram Vg)).
    Qed.
    (** hence the entries with f <> c vanish *)
    Lemma vanish g rho f mu nu : In g (out c zb) -> rho < N g z c -> In (f, mu, nu) (cols_of g) -> f <> c -> amp_Z g rho (f, mu, nu) = o0 o.
    Proof.
      intros Ig Hrho Ij NE. assert (VC := Vc). assert (VZ := Vzb).
      set (other := fun g => filter (fun j : sector * nat * nat => negb (row_eqb (fst (fst j)) c)) (cols_of g)).
      assert (SPLIT : forall g rho, In g (out c zb) -> rho < N g z c -> sum (map (fun j => amp_Z g rho j ** conj (amp_Z g rho j)) (cols_of g)) =
        sumn o (N c zb g) (fun nu => amp_W g nu rho ** conj (amp_W g nu rho)) ++' sum (map (fun j => amp_Z g rho j ** conj (amp_Z g rho j)) (other g))).
      { clear g rho Ig Hrho Ij. intros g rho Ig Hrho. unfold other.
        assert (PF : forall (p : sector * nat * nat -> bool) (h : sector * nat * nat -> K) L, sum (map h L) = sum (map h (filter p L)) ++' sum (map h (filter (fun x => negb (p x)) L))).
        { intros p h L. induction L as [|x L IH]; [cbn [filter map]; rewrite !sum_nil; ring|]. cbn [filter map]. rewrite sum_cons, IH. destruct (p x); cbn [negb map]; rewrite sum_cons; ring. }
        rewrite (PF (fun j => row_eqb (fst (fst j)) c)). f_equal.
        rewrite (sum_perm SR (b := map (fun j => amp_Z g rho j ** conj (amp_Z g rho j)) (idx [c] (fun f => N a z f) (fun f => N f zb g)))).
        2:{ apply Permutation_map. apply NoDup_Permutation; [apply NoDup_filter, cols_NoDup|apply NoDup_idx; repeat constructor; easy|]. intros [[f0 m] n]. rewrite filter_In. cbn [fst]. rewrite row_eqb_eq. unfold cols_of. rewrite !In_idx. cbn [In]. split.
            - intros ((_ & H1 & H2) & ->). auto.
            - intros ([<-|[]] & H1 & H2). auto. }
        rewrite idx_sum. cbn [map]. rewrite sum_cons, sum_nil.
        transitivity (sumn o (N a z c) (fun mu => (if kap =? mu then o1 o else o0 o) ** sumn o (N c zb g) (fun nu => amp_W g nu rho ** conj (amp_W g nu rho)))).
        { assert (A0 : forall x, x ++' o0 o = x) by (intros; ring). rewrite A0. unfold sumn. apply sum_ext. intros mu0 Hm. apply in_seq in Hm. rewrite <- (sum_mul_l SR). apply sum_ext. intros nu0 Hn. apply in_seq in Hn. rewrite pent by (auto; lia). destruct (kap =? mu0); rewrite ?(conj_0 ST); ring. }
        unfold sumn at 1. rewrite (sum_single SR (x := kap)); [rewrite Nat.eqb_refl; ring|apply seq_NoDup|apply in_seq; lia|]. intros y _ NY. destruct (kap =? y) eqn:E; [apply Nat.eqb_eq in E; congruence|ring]. }
      assert (NZ := norm_Z). assert (NW := norm_W). rewrite idx_sum in NW.
      assert (T : sum (map (fun g => sumn o (N g z c) (fun rho => sum (map (fun j => amp_Z g rho j ** conj (amp_Z g rho j)) (other g)))) (out c zb)) = o0 o).
      { assert (E : o1 o ++' sum (map (fun g => sumn o (N g z c) (fun rho => sum (map (fun j => amp_Z g rho j ** conj (amp_Z g rho j)) (other g)))) (out c zb)) = o1 o).
        { rewrite <- NZ at 2. rewrite <- NW. rewrite <- (sum_plus SR). apply sum_ext. intros g0 Ig0. unfold sumn. rewrite (sum_swap SR (fun s l => amp_W g0 s l ** conj (amp_W g0 s l))). rewrite <- (sum_plus SR). apply sum_ext. intros rho0 Hr. apply in_seq in Hr. symmetry. apply SPLIT; [exact Ig0|lia]. }
        assert (RT := st_ring ST). revert E. generalize (sum (map (fun g0 => sumn o (N g0 z c) (fun rho0 => sum (map (fun j => amp_Z g0 rho0 j ** conj (amp_Z g0 rho0 j)) (other g0)))) (out c zb))). intros x E.
        rewrite <- (Radd_0_l RT x). rewrite <- (Ropp_def RT (o1 o)). rewrite (Radd_comm RT (o1 o) (oopp o (o1 o))), <- (Radd_assoc RT), E. reflexivity. }
      (* definiteness *)
      set (L := flat_map (fun g => flat_map (fun rho => map (amp_Z g rho) (other g)) (seq 0 (N g z c))) (out c zb)).
      apply (@st_definite _ _ ST L).
      - unfold L. rewrite (sum_flat_map SR). rewrite <- T. apply sum_ext. intros g0 _. rewrite (sum_flat_map SR). unfold sumn. apply sum_ext. intros rho0 _. rewrite map_map. reflexivity.
      - unfold L. apply in_flat_map. exists g. split; [exact Ig|]. apply in_flat_map. exists rho. split; [apply in_seq; lia|]. apply in_map. unfold other. apply filter_In. split; [exact Ij|]. cbn [fst]. destruct (row_eqb f c) eqn:E; [apply row_eqb_eq in E; congruence|reflexivity].
    Qed.
    (** the identity *)
    Lemma bend_identity rho : rho < N a z c ->
      sumn o (N c zb a) (fun nu => conj (F a z zb a one c 0 0 kap nu) ** F c zb z c one a 0 0 nu rho) ** qd z = if kap =? rho then fs z else o0 o.
    Proof.
      intros Hrho. assert (VC := Vc). assert (VZ := Vzb). assert (Ia : In a (out c zb)). { apply (N_In (n := kap)). rewrite <- (N_rotate Va Vz VC). exact Hkap. }
      assert (I0 : In (one, 0, 0) (rows_of a)). { apply In_idx. rewrite N_dual, N_unit_r by assumption. split; [now apply In_dual|lia]. }
      assert (PK := @iso_pick _ _ tri_eqb tri_eqb_eq (rows_of a) (cols_of a) (amp_M a) (rows_NoDup a) (gram Va) (amp_A a rho) (one, 0, 0) I0). fold (amp_Z a rho) in PK.
      assert (E : sumn o (N c zb a) (fun nu => conj (F a z zb a one c 0 0 kap nu) ** F c zb z c one a 0 0 nu rho) = amp_A a rho (one, 0, 0)).
      { rewrite <- PK. unfold cols_of. rewrite idx_sum. rewrite (sum_single SR (x := c)); [|now apply (fr_nodup RING)|exact Ic|].
        - unfold sumn. rewrite (sum_single SR (x := kap) (l := seq 0 (N a z c))); [|apply seq_NoDup|apply in_seq; lia|].
          + apply sum_ext. intros nu Hn. apply in_seq in Hn. change (sum (map (fun i => amp_M a i (c, kap, nu) ** amp_A a rho i) (rows_of a))) with (amp_Z a rho (c, kap, nu)). rewrite pent by (auto; lia). rewrite Nat.eqb_refl. unfold amp_W, amp_M. ring.
          + intros mu Hm NE. apply in_seq in Hm. apply (sum_zero SR). intros nu Hn. apply in_seq in Hn. change (sum (map (fun i => amp_M a i (c, mu, nu) ** amp_A a rho i) (rows_of a))) with (amp_Z a rho (c, mu, nu)). rewrite pent by (auto; lia). destruct (kap =? mu) eqn:E; [apply Nat.eqb_eq in E; congruence|ring].
        - intros f If NE. unfold sumn. apply (sum_zero SR). intros mu Hm. apply (sum_zero SR). intros nu Hn. apply in_seq in Hm. apply in_seq in Hn. change (sum (map (fun i => amp_M a i (f, mu, nu) ** amp_A a rho i) (rows_of a))) with (amp_Z a rho (f, mu, nu)). rewrite vanish; [ring|exact Ia|exact Hrho|apply In_idx; split; [exact If|lia]|exact NE]. }
      rewrite E. unfold amp_A. assert (N1 : N one z z = 1) by (apply (fr_unit RING Vz)). rewrite N1. unfold sumn. cbn [seq map]. rewrite sum_cons, sum_nil.
      assert (Iz : In z (out one z)) by (rewrite (proj1 (fr_unit RING Vz)); now left).
      assert (T := @TRIV a one z Va (fr_trivial_valid RING) Vz (or_intror (or_introl eq_refl)) z Iz c Ic a (In_unit_r Va) (proj2 (fuses_In _ _ _) Ic) 0 kap 0 rho).
      rewrite N1, N_unit_r in T by assumption. specialize (T ltac:(lia) Hkap ltac:(lia) Hrho). rewrite T. cbn [Nat.mul Nat.add]. destruct (FQ Vz) as [FE _]. destruct (kap =? rho); [rewrite <- FE; ring|ring].
    Qed.
  End Labels.
End Bend.
