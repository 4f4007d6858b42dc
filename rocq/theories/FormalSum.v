(** Formal sums of sectors with natural multiplicities, and their fusion product. *)
From Verif Require Import Util RowModel RowProofs SymModel SymProofs SpaceModel SpaceSpec SpaceProofs7.
Set Implicit Arguments. Unset Strict Implicit.
Open Scope nat_scope.

Definition fmult (M : list (sector * nat)) (c : sector) : nat := nsum (map snd (filter (fun p => row_eqb (fst p) c) M)).
Definition weight (M : list (sector * nat)) (f : sector -> nat) : nat := nsum (map (fun p => snd p * f (fst p)) M).
Definition feq (M N : list (sector * nat)) : Prop := forall c, fmult M c = fmult N c.
Definition delta (c a : sector) : nat := if row_eqb a c then 1 else 0.

Lemma nsum_map_ext A (f g : A -> nat) l : (forall x, In x l -> f x = g x) -> nsum (map f l) = nsum (map g l).
Proof. intros H. f_equal. apply map_ext_in, H. Qed.
Lemma nsum_map_plus A (f g : A -> nat) l : nsum (map (fun x => f x + g x) l) = nsum (map f l) + nsum (map g l).
Proof. induction l as [|x l IH]; [easy|]. cbn [map nsum fold_right]. fold (nsum (map (fun x => f x + g x) l)). rewrite IH. unfold nsum. lia. Qed.
Lemma nsum_map_mul A k (f : A -> nat) l : nsum (map (fun x => k * f x) l) = k * nsum (map f l).
Proof. induction l as [|x l IH]; [cbn; lia|]. cbn [map nsum fold_right]. fold (nsum (map (fun x => k * f x) l)). rewrite IH. fold (nsum (map f l)). lia. Qed.
Lemma nsum_map_mul_r A k (f : A -> nat) l : nsum (map (fun x => f x * k) l) = nsum (map f l) * k.
Proof. rewrite Nat.mul_comm, <- nsum_map_mul. apply nsum_map_ext; intros; lia. Qed.
Lemma nsum_map_0 A (l : list A) : nsum (map (fun _ => 0) l) = 0.
Proof. induction l; [easy|exact IHl]. Qed.
Lemma nsum_map_swap A B (f : A -> B -> nat) l m :
  nsum (map (fun a => nsum (map (f a) m)) l) = nsum (map (fun b => nsum (map (fun a => f a b) l)) m).
Proof.
  induction l as [|a l IH]; [cbn [map]; now rewrite nsum_map_0|].
  cbn [map nsum fold_right]. fold (nsum (map (fun a => nsum (map (f a) m)) l)). rewrite IH.
  rewrite <- nsum_map_plus. apply nsum_map_ext. intros b _. reflexivity.
Qed.
Lemma nsum_flat_map A B (f : B -> nat) (g : A -> list B) l : nsum (map f (flat_map g l)) = nsum (map (fun a => nsum (map f (g a))) l).
Proof. induction l as [|a l IH]; [easy|]. cbn [flat_map map]. rewrite map_app, nsum_app, IH. reflexivity. Qed.
Lemma nsum_cons a l : nsum (a :: l) = a + nsum l. Proof. reflexivity. Qed.
Lemma nsum_single A (dec : forall x y : A, {x = y} + {x <> y}) (f : A -> nat) l x : NoDup l -> In x l ->
  (forall y, In y l -> y <> x -> f y = 0) -> nsum (map f l) = f x.
Proof.
  induction l as [|y l IH]; [easy|]. intros N I Z. inversion N; subst. cbn [map]. rewrite nsum_cons.
  destruct (dec y x) as [->|Hne].
  - rewrite (nsum_map_ext (g := fun _ => 0)); [rewrite nsum_map_0; lia|]. intros z Iz. apply Z; [now right|]. now intros ->.
  - destruct I as [->|I]; [easy|]. rewrite (Z y (or_introl eq_refl) Hne). cbn. apply IH; auto. intros z Iz. apply Z. now right.
Qed.

Lemma row_dec : forall x y : sector, {x = y} + {x <> y}.
Proof. apply list_eq_dec. apply Z.eq_dec. Qed.

Lemma weight_app M N f : weight (M ++ N) f = weight M f + weight N f.
Proof. unfold weight. now rewrite map_app, nsum_app. Qed.
Lemma weight_cons p M f : weight (p :: M) f = snd p * f (fst p) + weight M f. Proof. reflexivity. Qed.
Lemma weight_ext M f g : (forall p, In p M -> f (fst p) = g (fst p)) -> weight M f = weight M g.
Proof. intros H. apply nsum_map_ext. intros p I. now rewrite H. Qed.
Lemma weight_mul M k f : weight M (fun a => k * f a) = k * weight M f.
Proof. unfold weight. rewrite <- nsum_map_mul. apply nsum_map_ext. intros; lia. Qed.
Lemma weight_mul_r M k f : weight M (fun a => f a * k) = weight M f * k.
Proof. rewrite Nat.mul_comm, <- weight_mul. apply weight_ext; intros; lia. Qed.
Lemma weight_sum A M (f : sector -> A -> nat) l : weight M (fun a => nsum (map (f a) l)) = nsum (map (fun x => weight M (fun a => f a x)) l).
Proof.
  unfold weight. rewrite <- nsum_map_swap. apply nsum_map_ext. intros p _. now rewrite nsum_map_mul.
Qed.
Lemma weight_swap M N (f : sector -> sector -> nat) : weight M (fun a => weight N (f a)) = weight N (fun b => weight M (fun a => f a b)).
Proof.
  unfold weight at 2. rewrite (weight_sum M (fun a p => snd p * f a (fst p))). unfold weight at 2.
  apply nsum_map_ext. intros p _. now rewrite weight_mul.
Qed.
Lemma fmult_cons p M c : fmult (p :: M) c = (if row_eqb (fst p) c then snd p else 0) + fmult M c.
Proof. unfold fmult. cbn [filter]. destruct (row_eqb (fst p) c); reflexivity. Qed.
Lemma fmult_weight M c : fmult M c = weight M (delta c).
Proof.
  induction M as [|p M IH]; [easy|]. rewrite fmult_cons, weight_cons, IH. unfold delta at 2. destruct (row_eqb (fst p) c); lia.
Qed.
Lemma fmult_mult_of secs mults c : fmult (combine secs mults) c = mult_of secs mults c.
Proof. reflexivity. Qed.
Lemma fmult_notin M c : ~ In c (map fst M) -> fmult M c = 0.
Proof.
  induction M as [|p M IH]; [easy|]. rewrite fmult_cons. cbn [map]. intros H. rewrite IH by (intros X; apply H; now right).
  destruct (row_eqb (fst p) c) eqn:E; [|reflexivity]. apply row_eqb_eq in E. exfalso. apply H. now left.
Qed.
Lemma weight_fmult M f l : NoDup l -> (forall p, In p M -> In (fst p) l) -> weight M f = nsum (map (fun a => fmult M a * f a) l).
Proof.
  intros N. induction M as [|p M IH]; intros H.
  - cbn [weight fmult]. rewrite (nsum_map_ext (g := fun _ => 0)); [now rewrite nsum_map_0|easy].
  - rewrite weight_cons, IH by (intros; apply H; now right).
    rewrite (nsum_map_ext (f := fun a => fmult (p :: M) a * f a) (g := fun a => (if row_eqb (fst p) a then snd p else 0) * f a + fmult M a * f a))
      by (intros; rewrite fmult_cons; lia).
    rewrite nsum_map_plus. f_equal.
    rewrite (nsum_single row_dec (x := fst p) N); [now rewrite row_eqb_refl|apply H; now left|].
    intros y _ Hy. destruct (row_eqb (fst p) y) eqn:E; [apply row_eqb_eq in E; congruence|reflexivity].
Qed.
Lemma weight_feq M N f : feq M N -> weight M f = weight N f.
Proof.
  intros H. set (l := nodup row_dec (map fst M ++ map fst N)).
  rewrite (weight_fmult (M := M) f (l := l)), (weight_fmult (M := N) f (l := l)).
  - apply nsum_map_ext. intros a _. now rewrite H.
  - apply NoDup_nodup.
  - intros p I. apply nodup_In, in_or_app. right. now apply in_map.
  - apply NoDup_nodup.
  - intros p I. apply nodup_In, in_or_app. left. now apply in_map.
Qed.
Lemma feq_refl M : feq M M. Proof. easy. Qed.
Lemma feq_sym M N : feq M N -> feq N M. Proof. intros H c. now rewrite H. Qed.
Lemma feq_trans M N P : feq M N -> feq N P -> feq M P. Proof. intros H K c. now rewrite H. Qed.
Lemma feq_perm M N : Permutation M N -> feq M N.
Proof. intros H c. rewrite !fmult_weight. unfold weight. apply nsum_perm, Permutation_map, H. Qed.
Lemma fmult_map (g : sector -> sector) M c : fmult (map (fun p => (g (fst p), snd p)) M) c = weight M (fun a => delta c (g a)).
Proof. rewrite fmult_weight. unfold weight. rewrite map_map. reflexivity. Qed.
Lemma weight_pos M f p : In p M -> 0 < snd p -> 0 < f (fst p) -> 0 < weight M f.
Proof.
  intros I H K. unfold weight. induction M as [|q M IH]; [easy|]. cbn [map]. rewrite nsum_cons.
  destruct I as [->|I]; [nia|]. specialize (IH I). lia.
Qed.
Lemma weight_pos_inv M f : 0 < weight M f -> exists p, In p M /\ 0 < snd p /\ 0 < f (fst p).
Proof.
  unfold weight. induction M as [|q M IH]; [cbn; lia|]. cbn [map]. rewrite nsum_cons. intros H.
  destruct (Nat.eq_dec (snd q * f (fst q)) 0) as [E|E].
  - destruct IH as (p & I & ? & ?); [lia|]. exists p. split; [now right|easy].
  - exists q. split; [now left|]. destruct (snd q), (f (fst q)); lia.
Qed.

(** two sorted lists with the same positive multiplicities are equal *)
Lemma sorted_feq_eq u m u' m' : strictly_sorted u -> strictly_sorted u' -> length m = length u -> length m' = length u' ->
  (forall x, In x m -> 0 < x) -> (forall x, In x m' -> 0 < x) ->
  feq (combine u m) (combine u' m') -> u = u' /\ m = m'.
Proof.
  intros Su Su' L L' P P' F.
  assert (N : NoDup u). { eapply StronglySorted_NoDup; [|exact Su]. intros a. apply lex_lt_irrefl. }
  assert (N' : NoDup u'). { eapply StronglySorted_NoDup; [|exact Su']. intros a. apply lex_lt_irrefl. }
  assert (E : u = u').
  { assert (I : forall x, In x u <-> In x u').
    { intros x. rewrite (mult_of_pos x N L P), (mult_of_pos x N' L' P'). rewrite <- !fmult_mult_of. now rewrite (F x). }
    eapply (StronglySorted_unique (R := lex_lt)); [exact lex_lt_irrefl|exact lex_lt_trans|exact Su|exact Su'|exact I]. }
  subst u'. split; [reflexivity|]. apply list_eq_nth with (d := 0); [congruence|]. intros i Hi.
  rewrite <- (mult_of_nth N L (i := i)) by lia. rewrite <- (mult_of_nth N L' (i := i)) by lia.
  rewrite <- !fmult_mult_of. apply F.
Qed.

(** ** Fusion product *)
Section Conv.
  Variable S : symmetry.
  Definition valids (M : list (sector * nat)) : Prop := Forall (fun p => sym_valid S (fst p) = true) M.
  Definition conv (M N : list (sector * nat)) : list (sector * nat) :=
    flat_map (fun p => flat_map (fun q => map (fun c => (c, snd p * snd q * sym_n S (fst p) (fst q) c)) (sym_outcomes S (fst p) (fst q))) N) M.

  Lemma weight_conv M N g : weight (conv M N) g =
    weight M (fun a => weight N (fun b => nsum (map (fun c => sym_n S a b c * g c) (sym_outcomes S a b)))).
  Proof.
    unfold conv, weight. rewrite nsum_flat_map. apply nsum_map_ext. intros p _.
    rewrite nsum_flat_map, <- nsum_map_mul. apply nsum_map_ext. intros q _.
    rewrite map_map. cbn [fst snd]. rewrite !Nat.mul_assoc, <- nsum_map_mul. apply nsum_map_ext. intros c _. lia.
  Qed.

  Hypothesis RING : fusion_ring S.

  Lemma n_symbol_sum a b c : sym_valid S a = true -> sym_valid S b = true ->
    nsum (map (fun x => sym_n S a b x * delta c x) (sym_outcomes S a b)) = n_symbol S a b c.
  Proof.
    intros Va Vb. destruct (in_dec row_dec c (sym_outcomes S a b)) as [I|I].
    - rewrite (nsum_single row_dec (x := c) (fr_nodup RING Va Vb) I).
      + unfold delta. rewrite row_eqb_refl, Nat.mul_1_r. unfold n_symbol. now rewrite (proj2 (can_fuse_to_In S a b c) I).
      + intros y _ Hy. unfold delta. destruct (row_eqb y c) eqn:E; [apply row_eqb_eq in E; congruence|lia].
    - rewrite (nsum_map_ext (g := fun _ => 0)).
      + rewrite nsum_map_0. unfold n_symbol. destruct (can_fuse_to S a b c) eqn:E; [|reflexivity]. apply can_fuse_to_In in E. easy.
      + intros x Ix. unfold delta. destruct (row_eqb x c) eqn:E; [apply row_eqb_eq in E; congruence|lia].
  Qed.
  Lemma sym_n_n a b e : In e (sym_outcomes S a b) -> sym_n S a b e = n_symbol S a b e.
  Proof. intros I. unfold n_symbol. now rewrite (proj2 (can_fuse_to_In S a b e) I). Qed.

  Lemma fmult_conv M N c : valids M -> valids N -> fmult (conv M N) c = weight M (fun a => weight N (fun b => n_symbol S a b c)).
  Proof.
    intros VM VN. rewrite fmult_weight, weight_conv. apply weight_ext. intros p Ip. apply weight_ext. intros q Iq.
    apply n_symbol_sum; [exact (proj1 (Forall_forall _ _) VM p Ip)|exact (proj1 (Forall_forall _ _) VN q Iq)].
  Qed.
  Lemma valids_conv M N : valids M -> valids N -> valids (conv M N).
  Proof.
    intros VM VN. apply Forall_forall. intros x I. unfold conv in I. apply in_flat_map in I. destruct I as (p & Ip & I).
    apply in_flat_map in I. destruct I as (q & Iq & I). apply in_map_iff in I. destruct I as (c & <- & I). cbn [fst].
    eapply (fr_closed RING); [| |exact I]; [exact (proj1 (Forall_forall _ _) VM p Ip)|exact (proj1 (Forall_forall _ _) VN q Iq)].
  Qed.
  Lemma conv_feq M M' N N' : valids M -> valids M' -> valids N -> valids N' -> feq M M' -> feq N N' -> feq (conv M N) (conv M' N').
  Proof.
    intros V1 V2 V3 V4 H K c. rewrite !fmult_conv by auto. rewrite (weight_feq _ H). apply weight_ext. intros p _. apply (weight_feq _ K).
  Qed.
  Lemma conv_comm M N : valids M -> valids N -> feq (conv M N) (conv N M).
  Proof.
    intros VM VN c. rewrite !fmult_conv by auto. rewrite weight_swap. apply weight_ext. intros q Iq. apply weight_ext. intros p Ip.
    assert (Vp := proj1 (Forall_forall _ _) VM p Ip). assert (Vq := proj1 (Forall_forall _ _) VN q Iq). cbn beta in Vp, Vq.
    destruct (sym_valid S c) eqn:Vc; [apply (fr_comm RING); auto|].
    unfold n_symbol. destruct (can_fuse_to S (fst p) (fst q) c) eqn:E1.
    - apply can_fuse_to_In in E1. rewrite (fr_closed RING Vp Vq E1) in Vc. easy.
    - destruct (can_fuse_to S (fst q) (fst p) c) eqn:E2; [|reflexivity].
      apply can_fuse_to_In in E2. rewrite (fr_closed RING Vq Vp E2) in Vc. easy.
  Qed.
  Lemma n_symbol_invalid a b c : sym_valid S a = true -> sym_valid S b = true -> sym_valid S c = false -> n_symbol S a b c = 0.
  Proof.
    intros Va Vb Vc. unfold n_symbol. destruct (can_fuse_to S a b c) eqn:E1; [|reflexivity].
    apply can_fuse_to_In in E1. rewrite (fr_closed RING Va Vb E1) in Vc. easy.
  Qed.
  Lemma conv_assoc M N P : valids M -> valids N -> valids P -> feq (conv (conv M N) P) (conv M (conv N P)).
  Proof.
    intros VM VN VP d. rewrite !fmult_conv by auto using valids_conv. rewrite weight_conv.
    apply weight_ext. intros p Ip. rewrite weight_conv. apply weight_ext. intros q Iq.
    assert (Vp := proj1 (Forall_forall _ _) VM p Ip). assert (Vq := proj1 (Forall_forall _ _) VN q Iq). cbn beta in Vp, Vq.
    rewrite (nsum_map_ext (g := fun e => weight P (fun b => sym_n S (fst p) (fst q) e * n_symbol S e b d)))
      by (intros; now rewrite weight_mul).
    rewrite <- (weight_sum P (fun b e => sym_n S (fst p) (fst q) e * n_symbol S e b d)).
    apply weight_ext. intros r Ir. assert (Vr := proj1 (Forall_forall _ _) VP r Ir). cbn beta in Vr.
    destruct (sym_valid S d) eqn:Vd.
    - transitivity (left_count S (fst p) (fst q) (fst r) d).
      + unfold left_count. apply nsum_map_ext. intros e Ie. now rewrite (sym_n_n Ie).
      + rewrite (fr_assoc RING) by auto. unfold right_count. apply nsum_map_ext. intros e Ie. now rewrite (sym_n_n Ie).
    - rewrite (nsum_map_ext (g := fun _ => 0)), (nsum_map_ext (f := fun c => _ * n_symbol _ _ c d) (g := fun _ => 0)); [now rewrite !nsum_map_0| |].
      + intros e Ie. rewrite n_symbol_invalid; auto. eapply (fr_closed RING); [| |exact Ie]; auto.
      + intros e Ie. rewrite n_symbol_invalid; auto. eapply (fr_closed RING); [| |exact Ie]; auto.
  Qed.
  Definition unit_sum : list (sector * nat) := [(sym_trivial S, 1)].
  Lemma valids_unit : valids unit_sum. Proof. repeat constructor. apply (fr_trivial_valid RING). Qed.
  Lemma conv_unit_l M : valids M -> feq (conv unit_sum M) M.
  Proof.
    intros V c. rewrite fmult_conv by auto using valids_unit. unfold unit_sum. rewrite weight_cons. cbn [weight map nsum fold_right fst snd].
    rewrite Nat.add_0_r, Nat.mul_1_l, fmult_weight. apply weight_ext. intros p Ip. assert (Vp := proj1 (Forall_forall _ _) V p Ip). cbn beta in Vp.
    destruct (fr_unit RING Vp) as [U N]. unfold delta. destruct (row_eqb (fst p) c) eqn:E.
    - apply row_eqb_eq in E. now subst.
    - unfold n_symbol, can_fuse_to. rewrite U. cbn [existsb]. now rewrite E.
  Qed.
  Lemma valids_app M N : valids (M ++ N) <-> valids M /\ valids N. Proof. apply Forall_app. Qed.

  (** product of several formal sums *)
  Definition convs (l : list (list (sector * nat))) : list (sector * nat) := fold_right conv unit_sum l.
  Lemma valids_convs l : Forall valids l -> valids (convs l).
  Proof. induction 1; [apply valids_unit|now apply valids_conv]. Qed.
  Lemma convs_app l m : Forall valids l -> Forall valids m -> feq (convs (l ++ m)) (conv (convs l) (convs m)).
  Proof.
    intros Vl Vm. induction Vl as [|M l VM Vl IH].
    - cbn [app convs fold_right]. apply feq_sym, conv_unit_l, valids_convs, Vm.
    - cbn [app convs fold_right]. fold (convs (l ++ m)) (convs l).
      eapply feq_trans; [apply conv_feq; [exact VM|exact VM| | |apply feq_refl|exact IH]|].
      + apply valids_convs, Forall_app; auto.
      + apply valids_conv; apply valids_convs; auto.
      + apply feq_sym, conv_assoc; auto using valids_convs.
  Qed.
  Lemma convs_one M : valids M -> feq (convs [M]) M.
  Proof. intros V. cbn. eapply feq_trans; [apply conv_comm; auto using valids_unit|now apply conv_unit_l]. Qed.
  Lemma convs_feq l m : Forall valids l -> Forall valids m -> Forall2 feq l m -> feq (convs l) (convs m).
  Proof.
    intros Vl Vm H. induction H as [|M N l m HMN H IH]; [apply feq_refl|]. inversion Vl; inversion Vm; subst.
    cbn [convs fold_right]. apply conv_feq; auto using valids_convs.
  Qed.
  Lemma convs_perm l m : Forall valids l -> Permutation l m -> feq (convs l) (convs m).
  Proof.
    intros V H. induction H as [|M l m H IH|M N l|l m n H1 IH1 H2 IH2].
    - apply feq_refl.
    - inversion V; subst. cbn [convs fold_right]. apply conv_feq; auto using valids_convs, feq_refl.
      apply valids_convs. eapply Permutation_Forall; eauto.
    - inversion V as [|? ? V1 V']; subst. inversion V' as [|? ? V2 V3]; subst. cbn [convs fold_right]. fold (convs l).
      assert (VC := valids_convs V3).
      eapply feq_trans; [apply feq_sym, conv_assoc; auto|]. eapply feq_trans; [|apply conv_assoc; auto].
      apply conv_feq; auto using valids_conv, feq_refl, conv_comm.
    - eapply feq_trans; [apply IH1, V|apply IH2]. eapply Permutation_Forall; eauto.
  Qed.
  Lemma convs_concat ll : Forall (Forall valids) ll -> feq (convs (concat ll)) (convs (map convs ll)).
  Proof.
    induction 1 as [|l ll V VV IH]; [apply feq_refl|]. cbn [concat map]. eapply feq_trans; [apply convs_app; auto|].
    - apply Forall_concat, VV.
    - cbn [convs fold_right]. fold (convs (map convs ll)).
      apply conv_feq; auto using valids_convs, feq_refl.
      + apply valids_convs, Forall_concat, VV.
      + apply valids_convs. apply Forall_map. eapply Forall_impl; [|exact VV]. intros a Ha. now apply valids_convs.
  Qed.
  (** duality *)
  Definition dual_sum (M : list (sector * nat)) := map (fun p => (sym_dual S (fst p), snd p)) M.
  Lemma valids_dual M : valids M -> valids (dual_sum M).
  Proof. intros V. apply Forall_map. eapply Forall_impl; [|exact V]. intros p Hp. cbn [fst]. now apply (fr_dual_valid RING). Qed.
  Lemma weight_dual M g : weight (dual_sum M) g = weight M (fun a => g (sym_dual S a)).
  Proof. unfold weight, dual_sum. rewrite map_map. reflexivity. Qed.
  Lemma delta_dual a c : sym_valid S a = true -> sym_valid S c = true -> delta c (sym_dual S a) = delta (sym_dual S c) a.
  Proof.
    intros Va Vc. unfold delta. destruct (row_eqb (sym_dual S a) c) eqn:E1, (row_eqb a (sym_dual S c)) eqn:E2; try reflexivity.
    - apply row_eqb_eq in E1. subst c. rewrite (fr_dual_invol RING Va), row_eqb_refl in E2. easy.
    - apply row_eqb_eq in E2. subst a. rewrite (fr_dual_invol RING Vc), row_eqb_refl in E1. easy.
  Qed.
  Lemma fmult_invalid M c : valids M -> sym_valid S c = false -> fmult M c = 0.
  Proof.
    intros V Vc. apply fmult_notin. intros I. apply in_map_iff in I. destruct I as (p & <- & Ip).
    assert (Vp := proj1 (Forall_forall _ _) V p Ip). cbn beta in Vp. congruence.
  Qed.
  Lemma fmult_dual M c : valids M -> sym_valid S c = true -> fmult (dual_sum M) c = fmult M (sym_dual S c).
  Proof.
    intros V Vc. rewrite !fmult_weight, weight_dual. apply weight_ext. intros p Ip.
    apply delta_dual; [exact (proj1 (Forall_forall _ _) V p Ip)|exact Vc].
  Qed.
  Lemma conv_dual M N : valids M -> valids N -> feq (dual_sum (conv M N)) (conv (dual_sum M) (dual_sum N)).
  Proof.
    intros VM VN c. destruct (sym_valid S c) eqn:Vc.
    - rewrite fmult_dual by auto using valids_conv. rewrite !fmult_conv by auto using valids_dual.
      rewrite weight_dual. apply weight_ext. intros p Ip. rewrite weight_dual. apply weight_ext. intros q Iq.
      assert (Vp := proj1 (Forall_forall _ _) VM p Ip). assert (Vq := proj1 (Forall_forall _ _) VN q Iq). cbn beta in Vp, Vq.
      rewrite <- (fr_dual_n RING (a := fst p) (b := fst q) (c := sym_dual S c)) by auto using (fr_dual_valid RING).
      now rewrite (fr_dual_invol RING Vc).
    - rewrite !fmult_invalid; auto using valids_conv, valids_dual.
  Qed.
  Lemma dual_feq M N : valids M -> valids N -> feq M N -> feq (dual_sum M) (dual_sum N).
  Proof.
    intros VM VN H c. destruct (sym_valid S c) eqn:Vc; [now rewrite !fmult_dual by auto|].
    rewrite !fmult_invalid; auto using valids_dual.
  Qed.
  Lemma convs_dual l : Forall valids l -> feq (dual_sum (convs l)) (convs (map dual_sum l)).
  Proof.
    induction 1 as [|M l VM Vl IH].
    - cbn. rewrite (fr_dual_trivial RING). apply feq_refl.
    - cbn [convs fold_right map]. fold (convs l) (convs (map dual_sum l)).
      eapply feq_trans; [apply conv_dual; auto using valids_convs|].
      assert (Vd : Forall valids (map dual_sum l)).
      { apply Forall_map. eapply Forall_impl; [|exact Vl]. intros a. apply valids_dual. }
      apply conv_feq; auto using valids_dual, valids_convs, feq_refl.
  Qed.
End Conv.
