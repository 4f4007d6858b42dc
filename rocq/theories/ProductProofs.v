(** Product symmetries: binary products of fusion rings, then induction over the factors. *)
From Verif Require Import Util RowModel RowProofs SymModel SymProofs CatSpec ProductModel.
Set Implicit Arguments.
Unset Strict Implicit.
Open Scope nat_scope.

(** ** agreement of two symmetries on valid sectors *)
Record sym_agree (S T : symmetry) : Prop := {
  sa_len : sym_len S = sym_len T;
  sa_valid : forall a, sym_valid S a = sym_valid T a;
  sa_trivial : sym_trivial S = sym_trivial T;
  sa_out : forall a b, sym_valid T a = true -> sym_valid T b = true ->
    sym_outcomes S a b = sym_outcomes T a b;
  sa_n : forall a b c, sym_valid T a = true -> sym_valid T b = true ->
    In c (sym_outcomes T a b) -> sym_n S a b c = sym_n T a b c;
  sa_dual : forall a, sym_valid T a = true -> sym_dual S a = sym_dual T a;
  sa_dim : forall a, sym_valid T a = true -> sym_dim S a = sym_dim T a;
}.

Lemma sym_agree_refl S : sym_agree S S.
Proof. constructor; auto. Qed.
Lemma sym_agree_trans S T U : sym_agree S T -> sym_agree T U -> sym_agree S U.
Proof.
  intros A B. constructor; intros.
  - now rewrite (sa_len A), (sa_len B).
  - now rewrite (sa_valid A), (sa_valid B).
  - now rewrite (sa_trivial A), (sa_trivial B).
  - rewrite (sa_out A), (sa_out B); auto; now rewrite (sa_valid B).
  - rewrite (sa_n A), (sa_n B); auto; try (now rewrite (sa_valid B)).
    rewrite (sa_out B); auto.
  - rewrite (sa_dual A), (sa_dual B); auto. now rewrite (sa_valid B).
  - rewrite (sa_dim A), (sa_dim B); auto. now rewrite (sa_valid B).
Qed.

Lemma sa_n_symbol S T a b c : sym_agree S T -> sym_valid T a = true -> sym_valid T b = true ->
  n_symbol S a b c = n_symbol T a b c.
Proof.
  intros A Ha Hb. unfold n_symbol, can_fuse_to. rewrite (sa_out A) by auto.
  destruct (existsb _ _) eqn:E; auto. apply (sa_n A); auto.
  apply existsb_exists in E. destruct E as (x & Hx & E). apply row_eqb_eq in E. now subst.
Qed.

Lemma fusion_ring_agree S T : sym_agree S T -> fusion_ring T -> fusion_ring S.
Proof.
  intros A F.
  assert (V : forall a, sym_valid S a = true -> sym_valid T a = true)
    by (intros a; now rewrite (sa_valid A)).
  assert (TV := fr_trivial_valid F).
  constructor.
  - intros a H. rewrite (sa_len A). apply (fr_len F). auto.
  - rewrite (sa_trivial A), (sa_valid A). auto.
  - intros a H. rewrite (sa_dual A), (sa_valid A) by auto. apply (fr_dual_valid F). auto.
  - intros a b c Ha Hb. rewrite (sa_out A), (sa_valid A) by auto. apply (fr_closed F); auto.
  - intros a b Ha Hb. rewrite (sa_out A) by auto. apply (fr_nodup F); auto.
  - intros a b c Ha Hb H. rewrite (sa_out A) in H by auto. rewrite (sa_n A); auto.
    apply (fr_pos F); auto.
  - intros a Ha. rewrite (sa_trivial A), (sa_out A), (sa_n_symbol _ A) by auto. now apply (fr_unit F), V.
  - intros a b c Ha Hb Hc. rewrite !(sa_n_symbol _ A) by auto. apply (fr_comm F); auto.
  - intros a b c d Ha Hb Hc Hd. assert (H := @fr_assoc _ F a b c d (V _ Ha) (V _ Hb) (V _ Hc) (V _ Hd)).
    unfold left_count, right_count in *. rewrite !(sa_out A) by auto.
    rewrite (map_ext_in _ (fun e => n_symbol T a b e * n_symbol T e c d)).
    + rewrite H. f_equal. apply map_ext_in. intros e He.
      rewrite !(sa_n_symbol _ A); auto. apply (fr_closed F) in He; auto.
    + intros e He. rewrite !(sa_n_symbol _ A); auto. apply (fr_closed F) in He; auto.
  - intros a b Ha Hb. rewrite (sa_trivial A), (sa_n_symbol _ A), (sa_dual A) by auto.
    apply (fr_dual F); auto.
  - intros a Ha. rewrite !(sa_dual A); auto.
    + now apply (fr_dual_invol F), V.
    + rewrite (sa_dual A) by auto. now apply (fr_dual_valid F), V.
  - rewrite (sa_trivial A), (sa_dual A); auto. apply (fr_dual_trivial F).
  - intros a b c Ha Hb Hc. rewrite !(sa_dual A) by auto. rewrite !(sa_n_symbol _ A); auto;
      try (now apply (fr_dual_valid F), V). apply (fr_dual_n F); auto.
Qed.

Lemma dim_law_agree S T : sym_agree S T -> fusion_ring T -> dim_law T -> dim_law S.
Proof.
  intros A F (D1 & D2 & D3 & D4).
  assert (V : forall a, sym_valid S a = true -> sym_valid T a = true)
    by (intros a; now rewrite (sa_valid A)).
  assert (TV := fr_trivial_valid F).
  split; [|split; [|split]].
  - intros a H. rewrite (sa_dim A); auto.
  - rewrite (sa_trivial A), (sa_dim A); auto.
  - intros a H. rewrite (sa_dual A), !(sa_dim A); auto. now apply (fr_dual_valid F), V.
  - intros a b Ha Hb. rewrite (sa_out A), !(sa_dim A) by auto. rewrite <- (D4 a b) by auto.
    f_equal. apply map_ext_in. intros c Hc. rewrite (sa_n_symbol _ A), (sa_dim A); auto.
    apply (fr_closed F) in Hc; auto.
Qed.

(** ** binary products *)
Section Prod2.
  Variables P S : symmetry.
  Notation LP := (sym_len P).
  Notation p1 a := (firstn LP a).
  Notation p2 a := (skipn LP a).
  Definition prod2 : symmetry :=
    Sym (sym_len P + sym_len S)
      (fun a => (length a =? LP + sym_len S) && (sym_valid P (p1 a) && sym_valid S (p2 a)))
      (sym_trivial P ++ sym_trivial S)
      (fun a b => cart_step (sym_outcomes P (p1 a) (p1 b)) (sym_outcomes S (p2 a) (p2 b)))
      (fun a b c => sym_n P (p1 a) (p1 b) (p1 c) * sym_n S (p2 a) (p2 b) (p2 c))
      (fun a => sym_dual P (p1 a) ++ sym_dual S (p2 a))
      (fun a => sym_dim P (p1 a) * sym_dim S (p2 a)).

  Hypothesis FP : fusion_ring P.
  Hypothesis FS : fusion_ring S.

  Lemma p1_app (x y : sector) : length x = LP -> p1 (x ++ y) = x.
  Proof. intros <-. rewrite firstn_app, Nat.sub_diag. cbn. now rewrite app_nil_r, firstn_all. Qed.
  Lemma p2_app (x y : sector) : length x = LP -> p2 (x ++ y) = y.
  Proof. intros <-. rewrite skipn_app, Nat.sub_diag. cbn. now rewrite skipn_all. Qed.

  Lemma prod2_valid_iff (a : sector) :
    sym_valid prod2 a = true <-> sym_valid P (p1 a) = true /\ sym_valid S (p2 a) = true.
  Proof.
    cbn [prod2 sym_valid]. rewrite !andb_true_iff, Nat.eqb_eq. split; [tauto|].
    intros [H1 H2]. split; auto. apply (fr_len FP) in H1. apply (fr_len FS) in H2.
    rewrite <- (firstn_skipn LP a), app_length, H1, H2. reflexivity.
  Qed.
  Lemma prod2_valid_app x y : sym_valid P x = true -> sym_valid S y = true ->
    sym_valid prod2 (x ++ y) = true.
  Proof.
    intros Hx Hy. apply prod2_valid_iff. assert (L := fr_len FP Hx).
    now rewrite p1_app, p2_app.
  Qed.

  Lemma in_cart_step (c : sector) A B : (forall x, In x A -> length x = LP) ->
    (In c (cart_step A B) <-> In (p1 c) A /\ In (p2 c) B).
  Proof.
    intros L. unfold cart_step. rewrite in_flat_map. split.
    - intros (x & Hx & H). apply in_map_iff in H. destruct H as (y & <- & Hy).
      rewrite p1_app, p2_app by auto. auto.
    - intros [H1 H2]. exists (p1 c). split; auto. apply in_map_iff. exists (p2 c).
      split; auto. apply firstn_skipn.
  Qed.

  Lemma out_len a b x : sym_valid P a = true -> sym_valid P b = true -> In x (sym_outcomes P a b) ->
    length x = LP.
  Proof. intros Ha Hb H. apply (fr_closed FP) in H; auto. now apply (fr_len FP). Qed.

  Section On.
    Variables a b : sector.
    Hypothesis Ha : sym_valid prod2 a = true.
    Hypothesis Hb : sym_valid prod2 b = true.
    Lemma in_prod2_out (c : sector) :
      In c (sym_outcomes prod2 a b) <->
      In (p1 c) (sym_outcomes P (p1 a) (p1 b)) /\ In (p2 c) (sym_outcomes S (p2 a) (p2 b)).
    Proof.
      apply prod2_valid_iff in Ha, Hb. cbn [prod2 sym_outcomes]. apply in_cart_step.
      intros x. apply out_len; tauto.
    Qed.
    Lemma prod2_n_symbol (c : sector) :
      n_symbol prod2 a b c = n_symbol P (p1 a) (p1 b) (p1 c) * n_symbol S (p2 a) (p2 b) (p2 c).
    Proof.
      destruct (in_dec row_eq_dec c (sym_outcomes prod2 a b)) as [i|i].
      - rewrite n_symbol_In by auto. apply in_prod2_out in i. rewrite !n_symbol_In by tauto. reflexivity.
      - rewrite n_symbol_notIn by auto. rewrite in_prod2_out in i.
        destruct (in_dec row_eq_dec (p1 c) (sym_outcomes P (p1 a) (p1 b))) as [j|j].
        + rewrite (@n_symbol_notIn S); [lia|tauto].
        + rewrite (@n_symbol_notIn P); [reflexivity|tauto].
    Qed.
  End On.

  Lemma nsum_cart f g A B : (forall x, In x A -> length x = LP) ->
    nsum (map (fun c => f (p1 c) * g (p2 c)) (cart_step A B)) = nsum (map f A) * nsum (map g B).
  Proof.
    intros L. unfold cart_step. induction A as [|x A IH]; cbn [flat_map map nsum fold_right]; auto.
    rewrite map_app, nsum_app, IH by auto with datatypes. rewrite map_map.
    rewrite (map_ext_in _ (fun y => f x * g y)).
    - assert (E : forall l, nsum (map (fun y => f x * g y) l) = f x * nsum (map g l)).
      { induction l; cbn [map nsum fold_right]; [lia|]. fold (nsum (map (fun y => f x * g y) l)).
        fold (nsum (map g l)). rewrite IHl. lia. }
      rewrite E. fold (nsum (map f A)). lia.
    - intros y _. rewrite p1_app, p2_app; auto with datatypes.
  Qed.

  Lemma NoDup_cart A B : (forall x, In x A -> length x = LP) -> NoDup A -> NoDup B ->
    NoDup (cart_step A B).
  Proof.
    intros L NA NB. unfold cart_step. apply NoDup_flat_map; auto.
    - intros x Hx. apply NoDup_map_inj; auto. intros y z _ _ E. now apply app_inv_head in E.
    - intros x y c Hx Hy H1 H2. apply in_map_iff in H1, H2.
      destruct H1 as (u & <- & _), H2 as (v & E & _).
      assert (E1 := f_equal (firstn LP) E). rewrite !p1_app in E1; auto.
  Qed.

  Ltac pv H := apply prod2_valid_iff in H.

  Lemma prod2_closed a b c : sym_valid prod2 a = true -> sym_valid prod2 b = true ->
    In c (sym_outcomes prod2 a b) -> sym_valid prod2 c = true.
  Proof.
    intros Ha Hb H. rewrite in_prod2_out in H by auto. pv Ha. pv Hb. apply prod2_valid_iff.
    destruct H as [H1 H2]. split; [apply (fr_closed FP) in H1|apply (fr_closed FS) in H2]; tauto.
  Qed.

  Lemma prod2_ring : fusion_ring prod2.
  Proof.
    constructor.
    - intros a H. cbn [prod2 sym_valid] in H. apply andb_prop in H. now apply Nat.eqb_eq.
    - apply prod2_valid_app; [apply (fr_trivial_valid FP)|apply (fr_trivial_valid FS)].
    - intros a H. pv H. cbn [prod2 sym_dual].
      apply prod2_valid_app; [now apply (fr_dual_valid FP)|now apply (fr_dual_valid FS)].
    - exact prod2_closed.
    - intros a b Ha Hb. pv Ha. pv Hb. apply NoDup_cart.
      + intros x. apply out_len; tauto.
      + apply (fr_nodup FP); tauto.
      + apply (fr_nodup FS); tauto.
    - intros a b c Ha Hb H. rewrite in_prod2_out in H by auto. pv Ha. pv Hb. cbn [prod2 sym_n].
      apply Nat.mul_pos_pos; [apply (fr_pos FP)|apply (fr_pos FS)]; tauto.
    - intros a Ha. assert (Ha' := Ha). pv Ha'. destruct Ha' as [H1 H2].
      assert (LT : length (sym_trivial P) = LP) by apply (fr_len FP), (fr_trivial_valid FP).
      split.
      + cbn [prod2 sym_outcomes sym_trivial]. rewrite p1_app, p2_app by auto.
        destruct (fr_unit FP H1) as [-> _]. destruct (fr_unit FS H2) as [-> _].
        unfold cart_step. cbn. now rewrite firstn_skipn.
      + rewrite prod2_n_symbol; auto.
        * cbn [prod2 sym_trivial]. rewrite p1_app, p2_app by auto.
          destruct (fr_unit FP H1) as [_ ->]. destruct (fr_unit FS H2) as [_ ->]. reflexivity.
        * apply prod2_valid_app; [apply (fr_trivial_valid FP)|apply (fr_trivial_valid FS)].
    - intros a b c Ha Hb Hc. rewrite !prod2_n_symbol by auto. pv Ha. pv Hb. pv Hc.
      rewrite (@fr_comm _ FP (p1 a)), (@fr_comm _ FS (p2 a)); tauto.
    - intros a b c d Ha Hb Hc Hd. unfold left_count, right_count.
      rewrite (map_ext_in _ (fun e =>
        (n_symbol P (p1 a) (p1 b) (p1 e) * n_symbol P (p1 e) (p1 c) (p1 d)) *
        (n_symbol S (p2 a) (p2 b) (p2 e) * n_symbol S (p2 e) (p2 c) (p2 d)))).
      2:{ intros e He. rewrite !prod2_n_symbol; auto; [lia|]. now apply prod2_closed in He. }
      rewrite (map_ext_in _ (fun e =>
        (n_symbol P (p1 b) (p1 c) (p1 e) * n_symbol P (p1 a) (p1 e) (p1 d)) *
        (n_symbol S (p2 b) (p2 c) (p2 e) * n_symbol S (p2 a) (p2 e) (p2 d)))
        (sym_outcomes prod2 b c)).
      2:{ intros e He. rewrite !prod2_n_symbol; auto; [lia|]. now apply prod2_closed in He. }
      pv Ha. pv Hb. pv Hc. pv Hd. cbn [prod2 sym_outcomes].
      rewrite (@nsum_cart (fun x => n_symbol P (p1 a) (p1 b) x * n_symbol P x (p1 c) (p1 d))
        (fun y => n_symbol S (p2 a) (p2 b) y * n_symbol S y (p2 c) (p2 d)))
        by (intros x; apply out_len; tauto).
      rewrite (@nsum_cart (fun x => n_symbol P (p1 b) (p1 c) x * n_symbol P (p1 a) x (p1 d))
        (fun y => n_symbol S (p2 b) (p2 c) y * n_symbol S (p2 a) y (p2 d)))
        by (intros x; apply out_len; tauto).
      f_equal; [apply (fr_assoc FP)|apply (fr_assoc FS)]; tauto.
    - intros a b Ha Hb. rewrite prod2_n_symbol by auto. pv Ha. pv Hb.
      assert (LT : length (sym_trivial P) = LP) by apply (fr_len FP), (fr_trivial_valid FP).
      cbn [prod2 sym_trivial sym_dual]. rewrite p1_app, p2_app by auto.
      rewrite (fr_dual FP), (fr_dual FS) by tauto.
      assert (LD : length (sym_dual P (p1 a)) = LP) by (apply (fr_len FP), (fr_dual_valid FP); tauto).
      destruct (row_eq_dec b (sym_dual P (p1 a) ++ sym_dual S (p2 a))) as [E|n].
      + rewrite E at 1 2. rewrite p1_app, p2_app, !row_eqb_refl by auto.
        rewrite E, row_eqb_refl. reflexivity.
      + rewrite (proj2 (row_eqb_neq _ _) n).
        destruct (row_eqb (p1 b) _) eqn:E1; destruct (row_eqb (p2 b) _) eqn:E2; auto.
        apply row_eqb_eq in E1, E2. elim n. rewrite <- E1, <- E2. symmetry. apply firstn_skipn.
    - intros a Ha. pv Ha. cbn [prod2 sym_dual].
      assert (LD : length (sym_dual P (p1 a)) = LP) by (apply (fr_len FP), (fr_dual_valid FP); tauto).
      rewrite p1_app, p2_app by auto. rewrite (fr_dual_invol FP), (fr_dual_invol FS) by tauto.
      apply firstn_skipn.
    - assert (LT : length (sym_trivial P) = LP) by apply (fr_len FP), (fr_trivial_valid FP).
      cbn [prod2 sym_trivial sym_dual]. rewrite p1_app, p2_app by auto.
      now rewrite (fr_dual_trivial FP), (fr_dual_trivial FS).
    - intros a b c Ha Hb Hc.
      assert (D : forall a, sym_valid prod2 a = true -> sym_valid prod2 (sym_dual prod2 a) = true).
      { intros x H. pv H. cbn [prod2 sym_dual].
        apply prod2_valid_app; [now apply (fr_dual_valid FP)|now apply (fr_dual_valid FS)]. }
      rewrite !prod2_n_symbol by auto. pv Ha. pv Hb. pv Hc. cbn [prod2 sym_dual].
      assert (LD : forall x, sym_valid P x = true -> length (sym_dual P x) = LP)
        by (intros; now apply (fr_len FP), (fr_dual_valid FP)).
      rewrite !p1_app, !p2_app by (apply LD; tauto).
      now rewrite (fr_dual_n FP), (fr_dual_n FS) by tauto.
  Qed.

  Lemma prod2_dims : dim_law P -> dim_law S -> dim_law prod2.
  Proof.
    intros (P1 & P2 & P3 & P4) (S1 & S2 & S3 & S4). split; [|split; [|split]].
    - intros a H. pv H. cbn [prod2 sym_dim]. apply Nat.mul_pos_pos; [apply P1|apply S1]; tauto.
    - assert (LT : length (sym_trivial P) = LP) by apply (fr_len FP), (fr_trivial_valid FP).
      cbn [prod2 sym_trivial sym_dim]. rewrite p1_app, p2_app by auto. now rewrite P2, S2.
    - intros a H. pv H. cbn [prod2 sym_dual sym_dim].
      assert (LD : length (sym_dual P (p1 a)) = LP) by (apply (fr_len FP), (fr_dual_valid FP); tauto).
      rewrite p1_app, p2_app by auto. now rewrite P3, S3.
    - intros a b Ha Hb.
      rewrite (map_ext_in _ (fun c =>
        (n_symbol P (p1 a) (p1 b) (p1 c) * sym_dim P (p1 c)) *
        (n_symbol S (p2 a) (p2 b) (p2 c) * sym_dim S (p2 c)))).
      2:{ intros e He. rewrite !prod2_n_symbol by auto. cbn [prod2 sym_dim]. lia. }
      pv Ha. pv Hb. cbn [prod2 sym_outcomes sym_dim].
      rewrite (@nsum_cart (fun x => n_symbol P (p1 a) (p1 b) x * sym_dim P x)
        (fun y => n_symbol S (p2 a) (p2 b) y * sym_dim S y))
        by (intros x; apply out_len; tauto).
      rewrite P4, S4 by tauto. lia.
  Qed.
End Prod2.

(** ** lists of factors *)
Section Lists.
  Variable K : Type.
  Variable o : ops K.
  Notation facs := (list (factor K)).
  Notation nf := (nofac o).
  Notation fsym fs i := (fac_sym (nth i fs nf)).
  Notation fsec := (@factor_sector K).

  (** a factor whose declared styles are truthful *)
  Record honest (f : factor K) : Prop := {
    ho_ring : fusion_ring (fac_sym f);
    ho_unique : fac_style f <= style_multiple_unique -> forall a b c,
      sym_valid (fac_sym f) a = true -> sym_valid (fac_sym f) b = true ->
      In c (sym_outcomes (fac_sym f) a b) -> sym_n (fac_sym f) a b c = 1;
    ho_dim1 : fac_style f = style_single -> forall a, sym_valid (fac_sym f) a = true ->
      sym_dim (fac_sym f) a = 1;
    ho_qd1 : fac_style f = style_single -> forall a, sym_valid (fac_sym f) a = true ->
      fac_qd f a = o1 o;
  }.

  Lemma fold_len (l : facs) x :
    fold_left (fun acc f => acc + sym_len (fac_sym f)) l x =
    x + fold_left (fun acc f => acc + sym_len (fac_sym f)) l 0.
  Proof.
    revert x. induction l as [|f l IH]; intros; cbn [fold_left]; [lia|].
    rewrite IH, (IH (0 + _)). lia.
  Qed.
  Lemma slice_snoc (fs : facs) f i : i <= length fs -> sector_slice (fs ++ [f]) i = sector_slice fs i.
  Proof.
    intros H. unfold sector_slice. rewrite firstn_app.
    replace (i - length fs) with 0 by lia. cbn [firstn]. now rewrite app_nil_r.
  Qed.
  Lemma total_snoc (fs : facs) f : total_len (fs ++ [f]) = total_len fs + sym_len (fac_sym f).
  Proof.
    unfold total_len, sector_slice. rewrite !firstn_all. now rewrite fold_left_app.
  Qed.
  Lemma slice_total (fs : facs) i : i <= length fs -> sector_slice fs i <= total_len fs.
  Proof.
    intros H. unfold total_len, sector_slice. rewrite firstn_all.
    rewrite <- (firstn_skipn i fs) at 2. rewrite fold_left_app, (fold_len (skipn i fs)). lia.
  Qed.
  Lemma slice_mono (fs : facs) i : sector_slice fs i <= sector_slice fs (i + 1).
  Proof.
    unfold sector_slice. rewrite <- (firstn_skipn i (firstn (i + 1) fs)), fold_left_app.
    rewrite firstn_firstn. replace (Nat.min i (i + 1)) with i by lia. rewrite (fold_len (skipn i _)). lia.
  Qed.
  Lemma fsec_snoc_lt (fs : facs) f a i : i < length fs ->
    fsec (fs ++ [f]) a i = fsec fs (firstn (total_len fs) a) i.
  Proof.
    intros H. unfold factor_sector. rewrite !slice_snoc by lia.
    rewrite skipn_firstn_comm, firstn_firstn. f_equal.
    assert (A := @slice_total fs (i + 1) ltac:(lia)). assert (B := slice_mono fs i). lia.
  Qed.
  Lemma fsec_snoc_last (fs : facs) f a : length a = total_len (fs ++ [f]) ->
    fsec (fs ++ [f]) a (length fs) = skipn (total_len fs) a.
  Proof.
    intros H. unfold factor_sector. rewrite (@slice_snoc fs f (length fs)) by lia.
    replace (sector_slice (fs ++ [f]) (length fs + 1)) with (total_len (fs ++ [f]))
      by (unfold total_len; rewrite app_length; reflexivity).
    fold (total_len fs). apply firstn_all2. rewrite skipn_length. lia.
  Qed.
  Lemma nth_snoc_lt (fs : facs) f i : i < length fs -> nth i (fs ++ [f]) nf = nth i fs nf.
  Proof. intros. now apply app_nth1. Qed.
  Lemma nth_snoc_last (fs : facs) f : nth (length fs) (fs ++ [f]) nf = f.
  Proof. rewrite app_nth2, Nat.sub_diag; auto. Qed.
  Lemma seq_snoc (fs : facs) (f : factor K) :
    seq 0 (length (fs ++ [f])) = seq 0 (length fs) ++ [length fs].
  Proof. rewrite app_length. cbn [length]. rewrite seq_app. reflexivity. Qed.

  Lemma fold_left_ext_in A B (g h : A -> B -> A) l x :
    (forall y b, In b l -> g y b = h y b) -> fold_left g l x = fold_left h l x.
  Proof.
    revert x. induction l; intros x H; cbn [fold_left]; auto.
    rewrite H by auto with datatypes. apply IHl. auto with datatypes.
  Qed.

  (** the product without the shortcuts taken for declared styles *)
  Definition full_n (fs : facs) (a b c : sector) : nat :=
    fold_left (fun r i => r * sym_n (fsym fs i) (fsec fs a i) (fsec fs b i) (fsec fs c i))
      (seq 0 (length fs)) 1.
  Definition full_dim (fs : facs) (a : sector) : nat :=
    fold_left (fun r i => r * sym_dim (fsym fs i) (fsec fs a i)) (seq 0 (length fs)) 1.
  Definition full_sym (fs : facs) : symmetry :=
    Sym (total_len fs) (product_valid o fs) (product_trivial fs) (product_outcomes o fs)
        (full_n fs) (product_dual o fs) (full_dim fs).

  Lemma valid_len (fs : facs) a : product_valid o fs a = true -> length a = total_len fs.
  Proof. intros H. apply andb_prop in H. now apply Nat.eqb_eq. Qed.

  Lemma app_length_inv (fs : facs) f (a : sector) : length a = total_len (fs ++ [f]) ->
    length (firstn (total_len fs) a) = total_len fs /\
    length (skipn (total_len fs) a) = sym_len (fac_sym f).
  Proof. rewrite total_snoc. intros H. rewrite firstn_length, skipn_length. lia. Qed.

  Lemma valid_snoc (fs : facs) f a :
    product_valid o (fs ++ [f]) a =
    ((length a =? total_len fs + sym_len (fac_sym f)) &&
     (product_valid o fs (firstn (total_len fs) a) &&
      sym_valid (fac_sym f) (skipn (total_len fs) a))).
  Proof.
    unfold product_valid. rewrite total_snoc.
    destruct (length a =? total_len fs + sym_len (fac_sym f)) eqn:E; auto. cbn [andb].
    apply Nat.eqb_eq in E. assert (E' := E). rewrite <- total_snoc in E'.
    destruct (app_length_inv E') as [L1 L2]. rewrite L1, Nat.eqb_refl. cbn [andb].
    rewrite seq_snoc, forallb_app. cbn [forallb]. rewrite andb_true_r. f_equal.
    - apply eq_true_iff_eq. rewrite !forallb_forall. split; intros H i Hi; specialize (H i Hi);
        apply in_seq in Hi; rewrite nth_snoc_lt, fsec_snoc_lt in * by lia; auto.
    - now rewrite nth_snoc_last, fsec_snoc_last.
  Qed.

  Lemma trivial_snoc (fs : facs) f :
    product_trivial (fs ++ [f]) = product_trivial fs ++ sym_trivial (fac_sym f).
  Proof. unfold product_trivial. rewrite flat_map_app. cbn. now rewrite app_nil_r. Qed.

  Lemma full_agree_snoc (fs : facs) f : fs <> [] -> fusion_ring (full_sym fs) ->
    fusion_ring (fac_sym f) -> sym_agree (full_sym (fs ++ [f])) (prod2 (full_sym fs) (fac_sym f)).
  Proof.
    intros NE FP FF.
    assert (VL : forall a, sym_valid (prod2 (full_sym fs) (fac_sym f)) a = true ->
              length a = total_len (fs ++ [f])).
    { intros a H. cbn [prod2 sym_valid full_sym sym_len] in H. apply andb_prop in H.
      rewrite total_snoc. now apply Nat.eqb_eq. }
    assert (CO : forall a b, product_outcomes o (fs ++ [f]) a b =
      cartesian (map (fun i => sym_outcomes (fsym (fs ++ [f]) i) (fsec (fs ++ [f]) a i) (fsec (fs ++ [f]) b i))
                          (seq 0 (length (fs ++ [f]))))).
    { intros. unfold product_outcomes. destruct (fs ++ [f]) eqn:E; auto.
      now apply app_eq_nil in E. }
    assert (CO' : forall a b, product_outcomes o fs a b =
      cartesian (map (fun i => sym_outcomes (fsym fs i) (fsec fs a i) (fsec fs b i))
                          (seq 0 (length fs)))).
    { intros. unfold product_outcomes. destruct fs eqn:E; congruence. }
    constructor.
    - cbn. apply total_snoc.
    - intros a. cbn [full_sym prod2 sym_valid sym_len]. apply valid_snoc.
    - cbn. apply trivial_snoc.
    - intros a b Ha Hb. apply VL in Ha, Hb. cbn [full_sym prod2 sym_outcomes sym_len].
      rewrite CO, CO'. unfold cartesian. rewrite seq_snoc, map_app, fold_left_app. cbn [map fold_left].
      rewrite nth_snoc_last, !fsec_snoc_last by auto. f_equal. f_equal. apply map_ext_in.
      intros i Hi. apply in_seq in Hi. now rewrite nth_snoc_lt, !fsec_snoc_lt by lia.
    - intros a b c Ha Hb Hc. assert (Vc := prod2_closed FP FF Ha Hb Hc).
      apply VL in Ha, Hb, Vc. cbn [full_sym prod2 sym_n sym_len].
      unfold full_n. rewrite seq_snoc, fold_left_app. cbn [fold_left].
      rewrite nth_snoc_last, !fsec_snoc_last by auto. f_equal. apply fold_left_ext_in.
      intros y i Hi. apply in_seq in Hi. now rewrite nth_snoc_lt, !fsec_snoc_lt by lia.
    - intros a Ha. apply VL in Ha. cbn [full_sym prod2 sym_dual sym_len]. unfold product_dual.
      rewrite seq_snoc, flat_map_app. cbn [flat_map]. rewrite app_nil_r.
      rewrite nth_snoc_last, !fsec_snoc_last by auto. f_equal.
      rewrite !flat_map_concat_map. f_equal. apply map_ext_in.
      intros i Hi. apply in_seq in Hi. now rewrite nth_snoc_lt, !fsec_snoc_lt by lia.
    - intros a Ha. apply VL in Ha. cbn [full_sym prod2 sym_dim sym_len]. unfold full_dim.
      rewrite seq_snoc, fold_left_app. cbn [fold_left].
      rewrite nth_snoc_last, !fsec_snoc_last by auto. f_equal. apply fold_left_ext_in.
      intros y i Hi. apply in_seq in Hi. now rewrite nth_snoc_lt, !fsec_snoc_lt by lia.
  Qed.

  Lemma fsec_single f (a : sector) : length a = sym_len (fac_sym f) -> fsec [f] a 0 = a.
  Proof.
    intros H. unfold factor_sector. cbn [sector_slice firstn fold_left Nat.add skipn].
    apply firstn_all2. rewrite Nat.sub_0_r. cbn. lia.
  Qed.
  Lemma full_agree_single f : fusion_ring (fac_sym f) -> sym_agree (full_sym [f]) (fac_sym f).
  Proof.
    intros FF. constructor.
    - cbn. reflexivity.
    - intros a. cbn [full_sym sym_valid]. unfold product_valid. cbn [total_len length seq forallb nth].
      rewrite andb_true_r. destruct (length a =? _) eqn:E; cbn [andb].
      + apply Nat.eqb_eq in E. now rewrite fsec_single.
      + destruct (sym_valid (fac_sym f) a) eqn:V; auto. apply (fr_len FF) in V.
        apply Nat.eqb_neq in E. elim E. exact V.
    - cbn. apply app_nil_r.
    - intros a b Ha Hb. apply (fr_len FF) in Ha, Hb. cbn [full_sym sym_outcomes product_outcomes length seq map nth].
      rewrite !fsec_single by auto. unfold cartesian, cart_step. cbn [fold_left flat_map].
      rewrite app_nil_r. apply map_id.
    - intros a b c Ha Hb Hc. apply (fr_closed FF) in Hc; auto. apply (fr_len FF) in Ha, Hb, Hc.
      cbn [full_sym sym_n]. unfold full_n. cbn [length seq fold_left nth].
      rewrite !fsec_single by auto. lia.
    - intros a Ha. apply (fr_len FF) in Ha. cbn [full_sym sym_dual]. unfold product_dual.
      cbn [length seq flat_map nth]. rewrite fsec_single, app_nil_r; auto.
    - intros a Ha. apply (fr_len FF) in Ha. cbn [full_sym sym_dim]. unfold full_dim.
      cbn [length seq fold_left nth]. rewrite fsec_single; auto. lia.
  Qed.

  (** everything about the full product at once, by induction on the number of factors *)
  Lemma full_ring (fs : facs) : fs <> [] -> Forall (fun f => fusion_ring (fac_sym f)) fs ->
    fusion_ring (full_sym fs).
  Proof.
    induction fs as [|f fs IH] using rev_ind; [easy|]. intros _ F. apply Forall_app in F.
    destruct F as [F Ff]. inversion Ff as [|? ? Hf _]; subst.
    destruct fs as [|g fs].
    - cbn [app]. exact (fusion_ring_agree (full_agree_single Hf) Hf).
    - assert (R : fusion_ring (full_sym (g :: fs))) by (apply IH; [easy|auto]).
      refine (fusion_ring_agree (@full_agree_snoc (g :: fs) f _ R Hf) (prod2_ring R Hf)). easy.
  Qed.
  Lemma full_dims (fs : facs) : fs <> [] -> Forall (fun f => fusion_ring (fac_sym f)) fs ->
    Forall (fun f => dim_law (fac_sym f)) fs -> dim_law (full_sym fs).
  Proof.
    induction fs as [|f fs IH] using rev_ind; [easy|]. intros _ F D. apply Forall_app in F, D.
    destruct F as [F Ff], D as [D Df].
    inversion Ff as [|? ? Hf _]; subst. inversion Df as [|? ? Hd _]; subst.
    destruct fs as [|g fs].
    - cbn [app]. exact (dim_law_agree (full_agree_single Hf) Hf Hd).
    - assert (R : fusion_ring (full_sym (g :: fs))) by (apply full_ring; [easy|auto]).
      refine (dim_law_agree (@full_agree_snoc (g :: fs) f _ R Hf) (prod2_ring R Hf)
        (prod2_dims R Hf _ Hd)); [easy|apply IH; auto; easy].
  Qed.

  Lemma valid_parts (fs : facs) a i : product_valid o fs a = true -> i < length fs ->
    sym_valid (fsym fs i) (fsec fs a i) = true.
  Proof.
    intros H L. apply andb_prop in H. destruct H as [_ H]. rewrite forallb_forall in H.
    apply H, in_seq. lia.
  Qed.

  (** fusion is factor-wise *)
  Lemma full_out_parts (fs : facs) a b c : fs <> [] -> Forall (fun f => fusion_ring (fac_sym f)) fs ->
    product_valid o fs a = true -> product_valid o fs b = true ->
    (In c (product_outcomes o fs a b) <->
     length c = total_len fs /\ forall i, i < length fs -> In (fsec fs c i) (sym_outcomes (fsym fs i) (fsec fs a i) (fsec fs b i))).
  Proof.
    intros NE F. revert NE a b c. induction fs as [|f fs IH] using rev_ind; [easy|].
    intros _ a b c Va Vb. apply Forall_app in F. destruct F as [F Ff]. inversion Ff as [|? ? Hf _]; subst.
    destruct fs as [|g fs].
    - cbn [app] in *. change (product_outcomes o [f] a b) with (sym_outcomes (full_sym [f]) a b).
      change (product_valid o [f]) with (sym_valid (full_sym [f])) in *.
      assert (A := full_agree_single Hf). rewrite (sa_valid A) in Va, Vb. rewrite (sa_out A) by auto.
      assert (La := fr_len Hf Va). assert (Lb := fr_len Hf Vb). split.
      + intros H. assert (Vc := fr_closed Hf Va Vb H). assert (Lc := fr_len Hf Vc). split; [exact Lc|].
        intros i Hi. cbn [length] in Hi. replace i with 0 by lia. cbn [nth].
        now rewrite !fsec_single.
      + intros [Lc H]. specialize (H 0 (Nat.lt_0_succ 0)). cbn [nth] in H.
        now rewrite !fsec_single in H.
    - set (l := g :: fs) in *. assert (NE : l <> []) by easy.
      assert (R : fusion_ring (full_sym l)) by (apply full_ring; auto).
      assert (A := full_agree_snoc NE R Hf).
      change (product_outcomes o (l ++ [f]) a b) with (sym_outcomes (full_sym (l ++ [f])) a b).
      assert (Va' := Va). assert (Vb' := Vb).
      change (product_valid o (l ++ [f])) with (sym_valid (full_sym (l ++ [f]))) in Va, Vb.
      rewrite (sa_valid A) in Va, Vb. rewrite (sa_out A), in_prod2_out by auto.
      apply valid_len in Va', Vb'. assert (Va2 := Va). assert (Vb2 := Vb).
      apply (prod2_valid_iff R Hf) in Va, Vb. cbn [full_sym sym_valid sym_outcomes sym_len] in *.
      rewrite IH; auto; try tauto. rewrite app_length. cbn [length]. split.
      + intros ((L & H1) & H2). apply (fr_closed Hf) in H2 as Vc; try tauto.
        apply (fr_len Hf) in Vc.
        assert (Lc : length c = total_len (l ++ [f])).
        { rewrite <- (firstn_skipn (total_len l) c), app_length, L, Vc, total_snoc. reflexivity. }
        split; auto. intros i Hi. destruct (Nat.eq_dec i (length l)) as [->|n].
        * now rewrite nth_snoc_last, !fsec_snoc_last.
        * rewrite nth_snoc_lt, !fsec_snoc_lt by lia. apply H1. lia.
      + intros [Lc H]. destruct (app_length_inv Lc) as [L1 L2]. split; [split; auto|].
        * intros i Hi. specialize (H i ltac:(lia)). now rewrite nth_snoc_lt, !fsec_snoc_lt in H by lia.
        * specialize (H (length l) ltac:(lia)). now rewrite nth_snoc_last, !fsec_snoc_last in H.
  Qed.

  (** styles *)
  Lemma fold_max_le (l : facs) x s :
    fold_left (fun s g => if s <? fac_style g then fac_style g else s) l x <= s <->
    x <= s /\ Forall (fun g => fac_style g <= s) l.
  Proof.
    revert x. induction l as [|g l IH]; intros; cbn [fold_left].
    - split; [intros H; split; auto|tauto].
    - rewrite IH. rewrite Forall_cons_iff. destruct (Nat.ltb_spec x (fac_style g)); split; intros; lia || tauto || (split; [lia|tauto]) || idtac.
      all: try (split; [lia|]; split; [lia|tauto]).
  Qed.
  Lemma max_style_le (fs : facs) s : max_fusion_style fs <= s <-> Forall (fun g => fac_style g <= s) fs.
  Proof.
    destruct fs as [|f fs]; cbn [max_fusion_style].
    - split; [constructor|lia].
    - rewrite fold_max_le, Forall_cons_iff. reflexivity.
  Qed.

  Lemma Forall_nth_fac (P : factor K -> Prop) fs i : Forall P fs -> i < length fs -> P (nth i fs nf).
  Proof. intros F H. rewrite Forall_forall in F. apply F, nth_In, H. Qed.

  Lemma fold_mul_1 A (g : A -> nat) l : (forall i, In i l -> g i = 1) ->
    fold_left (fun r i => r * g i) l 1 = 1.
  Proof.
    intros H. induction l as [|x l IH]; cbn [fold_left]; auto.
    rewrite H by auto with datatypes. apply IH. auto with datatypes.
  Qed.

  Lemma product_agree_full (fs : facs) : fs <> [] -> Forall honest fs ->
    sym_agree (product_sym o fs) (full_sym fs).
  Proof.
    intros NE F.
    assert (FR : Forall (fun f => fusion_ring (fac_sym f)) fs)
      by (eapply Forall_impl; [|exact F]; intros f Hf; apply Hf).
    constructor; auto.
    - intros a b c Va Vb Hc. cbn [product_sym full_sym sym_n sym_valid sym_outcomes] in *.
      unfold product_n. destruct (Nat.leb_spec (max_fusion_style fs) style_multiple_unique); auto.
      symmetry. apply fold_mul_1. intros i Hi. apply in_seq in Hi.
      apply max_style_le in H. apply (ho_unique (Forall_nth_fac F (i := i) ltac:(lia))).
      + apply (Forall_nth_fac H). lia.
      + apply valid_parts; auto; lia.
      + apply valid_parts; auto; lia.
      + rewrite full_out_parts in Hc by auto. apply Hc. lia.
    - intros a Va. cbn [product_sym full_sym sym_dim sym_valid] in *.
      unfold product_dim. destruct (Nat.eqb_spec (max_fusion_style fs) style_single); auto.
      symmetry. apply fold_mul_1. intros i Hi. apply in_seq in Hi.
      assert (H : max_fusion_style fs <= 0) by lia. apply max_style_le in H.
      apply (ho_dim1 (Forall_nth_fac F (i := i) ltac:(lia))).
      + apply (Forall_nth_fac H (i := i)) in Hi as H' || idtac.
        assert (H' := Forall_nth_fac H (i := i) ltac:(lia)). cbn beta in H'. lia.
      + apply valid_parts; auto; lia.
  Qed.

  Lemma product_ring (fs : facs) : fs <> [] -> Forall honest fs -> fusion_ring (product_sym o fs).
  Proof.
    intros NE F. apply (fusion_ring_agree (product_agree_full NE F)). apply full_ring; auto.
    eapply Forall_impl; [|exact F]. intros f Hf; apply Hf.
  Qed.
  Lemma product_dims (fs : facs) : fs <> [] -> Forall honest fs ->
    Forall (fun f => dim_law (fac_sym f)) fs -> dim_law (product_sym o fs).
  Proof.
    intros NE F D.
    assert (FR : Forall (fun f => fusion_ring (fac_sym f)) fs)
      by (eapply Forall_impl; [|exact F]; intros f Hf; apply Hf).
    apply (dim_law_agree (product_agree_full NE F)); auto using full_ring, full_dims.
  Qed.
End Lists.

(** ** further factor-wise operations *)
Section More.
  Variable K : Type.
  Variable o : ops K.
  Notation facs := (list (factor K)).
  Notation nf := (nofac o).
  Notation fsym fs i := (fac_sym (nth i fs nf)).
  Notation fsec := (@factor_sector K).

  Definition nprod (l : list nat) : nat := fold_right Nat.mul 1 l.
  Lemma fold_nprod A (g : A -> nat) l x : fold_left (fun r i => r * g i) l x = x * nprod (map g l).
  Proof.
    revert x. induction l as [|y l IH]; intros; cbn [fold_left map nprod fold_right]; [lia|].
    rewrite IH. unfold nprod. lia.
  Qed.
  Lemma nprod_0 l : In 0 l -> nprod l = 0.
  Proof.
    induction l as [|x l IH]; intros H; [easy|]. cbn [nprod fold_right]. destruct H as [->|H]; [lia|].
    fold (nprod l). rewrite IH; auto.
  Qed.

  Lemma product_n_symbol (fs : facs) a b c : fs <> [] -> Forall (honest o) fs ->
    product_valid o fs a = true -> product_valid o fs b = true -> length c = total_len fs ->
    n_symbol (product_sym o fs) a b c =
    nprod (map (fun i => n_symbol (fsym fs i) (fsec fs a i) (fsec fs b i) (fsec fs c i)) (seq 0 (length fs))).
  Proof.
    intros NE H Va Vb Lc.
    assert (FR : Forall (fun f => fusion_ring (fac_sym f)) fs)
      by (eapply Forall_impl; [|exact H]; intros f Hf; apply Hf).
    rewrite (sa_n_symbol _ (product_agree_full NE H)) by auto.
    destruct (in_dec row_eq_dec c (product_outcomes o fs a b)) as [i|i].
    - rewrite n_symbol_In by auto. cbn [full_sym sym_n]. unfold full_n. rewrite fold_nprod, Nat.mul_1_l.
      f_equal. apply map_ext_in. intros j Hj. apply in_seq in Hj. symmetry. apply n_symbol_In.
      apply (full_out_parts c NE FR Va Vb) in i. apply i. lia.
    - rewrite n_symbol_notIn by auto. symmetry. apply nprod_0.
      destruct (Forall_dec (fun j => In (fsec fs c j) (sym_outcomes (fsym fs j) (fsec fs a j) (fsec fs b j)))
        (fun j => in_dec row_eq_dec _ _) (seq 0 (length fs))) as [A|A].
      + elim i. apply full_out_parts; auto. split; auto. rewrite Forall_forall in A. intros j Hj.
        apply A, in_seq. lia.
      + apply neg_Forall_Exists_neg in A; [|intros; apply in_dec, row_eq_dec].
        apply Exists_exists in A. destruct A as (j & Hj & A). apply in_map_iff. exists j. split; auto.
        now apply n_symbol_notIn.
  Qed.

  (** a sector is the concatenation of its parts *)
  Lemma parts_concat (fs : facs) a : length a = total_len fs ->
    flat_map (fsec fs a) (seq 0 (length fs)) = a.
  Proof.
    revert a. induction fs as [|f fs IH] using rev_ind; intros a L.
    - cbn in *. now destruct a.
    - rewrite seq_snoc, flat_map_app. cbn [flat_map]. rewrite app_nil_r, fsec_snoc_last by auto.
      rewrite <- (firstn_skipn (total_len fs) a) at 3. f_equal.
      destruct (app_length_inv L) as [L1 _].
      rewrite <- (IH _ L1). rewrite !flat_map_concat_map. f_equal. apply map_ext_in.
      intros i Hi. apply in_seq in Hi. apply fsec_snoc_lt. lia.
  Qed.

  (** unique fusion *)
  Definition single_outcome (f : factor K) : Prop := forall a b,
    sym_valid (fac_sym f) a = true -> sym_valid (fac_sym f) b = true ->
    exists c, sym_outcomes (fac_sym f) a b = [c].

  Lemma cart_single (l : list sector) : cartesian (map (fun c => [c]) l) = [concat l].
  Proof.
    unfold cartesian. assert (H : forall p, fold_left cart_step (map (fun c => [c]) l) [p] = [p ++ concat l]).
    { induction l as [|c l IH]; intros p; cbn [map fold_left concat].
      - now rewrite app_nil_r.
      - change (cart_step [p] [c]) with [p ++ c]. rewrite IH. now rewrite app_assoc. }
    apply (H []).
  Qed.

  Section Abelian.
    Variable fs : facs.
    Hypothesis NE : fs <> [].
    Hypothesis FR : Forall (fun f => fusion_ring (fac_sym f)) fs.
    Hypothesis SO : Forall single_outcome fs.
    Notation PS := (product_sym o fs).
    Notation valid a := (product_valid o fs a = true).

    Lemma product_single a b : valid a -> valid b -> exists c,
      product_outcomes o fs a b = [c] /\ valid c /\
      forall i, i < length fs -> sym_outcomes (fsym fs i) (fsec fs a i) (fsec fs b i) = [fsec fs c i].
    Proof.
      intros Va Vb.
      assert (E : map (fun i => sym_outcomes (fsym fs i) (fsec fs a i) (fsec fs b i)) (seq 0 (length fs)) =
        map (fun c => [c]) (map (fun i => hd [] (sym_outcomes (fsym fs i) (fsec fs a i) (fsec fs b i))) (seq 0 (length fs)))).
      { rewrite map_map. apply map_ext_in. intros i Hi. apply in_seq in Hi.
        destruct (@Forall_nth_fac _ o _ _ i SO ltac:(lia) (fsec fs a i) (fsec fs b i)) as [c Ec].
        - apply valid_parts; auto; lia.
        - apply valid_parts; auto; lia.
        - now rewrite Ec. }
      assert (X : exists c, product_outcomes o fs a b = [c]).
      { unfold product_outcomes. destruct fs; [easy|]. rewrite E, cart_single. eauto. }
      destruct X as [c Hc]. exists c. split; auto.
      assert (I : In c (product_outcomes o fs a b)) by (rewrite Hc; now left). split.
      - exact (fr_closed (full_ring o NE FR) Va Vb I).
      - intros i Hi. apply (full_out_parts c NE FR Va Vb) in I. destruct I as [_ I]. specialize (I i Hi).
        destruct (@Forall_nth_fac _ o _ _ i SO Hi (fsec fs a i) (fsec fs b i)) as [d Ed].
        + apply valid_parts; auto.
        + apply valid_parts; auto.
        + rewrite Ed in *. destruct I as [->|[]]. reflexivity.
    Qed.

    Lemma fob_parts a b : Forall (fun x => valid x) a -> Forall (fun x => valid x) b -> length a = length b ->
      exists c, fusion_outcomes_broadcast PS a b = Some c /\ Forall (fun x => valid x) c /\
        length c = length a /\
        forall i, i < length fs ->
          fusion_outcomes_broadcast (fsym fs i) (map (fun s => fsec fs s i) a) (map (fun s => fsec fs s i) b)
          = Some (map (fun s => fsec fs s i) c).
    Proof.
      intros Fa. revert b. induction Fa as [|x a Vx Fa IH]; intros [|y b] Fb L; try discriminate.
      - exists []. auto.
      - inversion Fb as [|? ? Vy Fb']; subst. destruct (IH b Fb' ltac:(now injection L)) as (c & E & Vc & Lc & P).
        destruct (product_single Vx Vy) as (d & Ed & Vd & Pd). exists (d :: c). split; [|split; [|split]].
        + cbn [fusion_outcomes_broadcast product_sym sym_outcomes]. rewrite Ed.
          change (match fusion_outcomes_broadcast PS a b with Some r => Some (d :: r) | None => None end = Some (d :: c)).
          now rewrite E.
        + now constructor.
        + cbn [length]. lia.
        + intros i Hi. cbn [map fusion_outcomes_broadcast]. rewrite Pd, P by auto. reflexivity.
    Qed.

    Lemma loop_parts rest acc n : Forall (fun x => valid x) acc -> length acc = n ->
      Forall (fun l => length l = n /\ Forall (fun x => valid x) l) rest ->
      exists c, multiple_fusion_broadcast_loop PS acc rest = Some c /\ Forall (fun x => valid x) c /\
        length c = n /\
        forall i, i < length fs ->
          multiple_fusion_broadcast_loop (fsym fs i) (map (fun s => fsec fs s i) acc)
            (map (map (fun s => fsec fs s i)) rest) = Some (map (fun s => fsec fs s i) c).
    Proof.
      intros Fa La Fr. revert acc Fa La. induction Fr as [|l rest [Ll Vl] Fr IH]; intros acc Fa La.
      - exists acc. auto.
      - destruct (@fob_parts acc l Fa Vl ltac:(lia)) as (c & E & Vc & Lc & P).
        destruct (IH c Vc ltac:(lia)) as (d & Ed & Vd & Ld & Pd). exists d. split; [|split; [|split]]; auto.
        + unfold multiple_fusion_broadcast_loop in *. cbn [fold_left]. now rewrite E.
        + intros i Hi. specialize (P i Hi). specialize (Pd i Hi).
          unfold multiple_fusion_broadcast_loop in *. cbn [fold_left map]. now rewrite P.
    Qed.

    Lemma all_some_map A B (g : A -> option B) (h : A -> B) l : (forall x, In x l -> g x = Some (h x)) ->
      all_some (map g l) = Some (map h l).
    Proof.
      intros H. induction l as [|x l IH]; cbn [map all_some]; auto.
      rewrite H by auto with datatypes. rewrite IH by auto with datatypes. reflexivity.
    Qed.
    Lemma concat_rows_parts c : Forall (fun x => valid x) c ->
      concat_rows (length c) (map (fun i => map (fun s => fsec fs s i) c) (seq 0 (length fs))) = c.
    Proof.
      intros V. apply list_eq_nth with (d := []).
      - unfold concat_rows. now rewrite map_length, seq_length.
      - intros r Hr. unfold concat_rows in *. rewrite map_length, seq_length in Hr.
        rewrite nth_map_lt with (d := 0) by (now rewrite seq_length). rewrite seq_nth by auto. cbn [Nat.add].
        rewrite Forall_nth_iff with (d := []) in V.
        rewrite <- (@parts_concat fs (nth r c [])) by (apply (@valid_len _ o), V, Hr).
        rewrite !flat_map_concat_map, map_map. f_equal. apply map_ext. intros i.
        now rewrite nth_map_lt with (d := []) by auto.
    Qed.

    Lemma product_broadcast_ok a b : Forall (fun x => valid x) a -> Forall (fun x => valid x) b ->
      length a = length b -> product_broadcast o fs a b = fusion_outcomes_broadcast PS a b /\
      fusion_outcomes_broadcast PS a b <> None.
    Proof.
      intros Fa Fb L. destruct (fob_parts Fa Fb L) as (c & E & Vc & Lc & P). rewrite E. split; [|easy].
      unfold product_broadcast.
      rewrite all_some_map with (h := fun i => map (fun s => fsec fs s i) c).
      - f_equal. rewrite <- Lc. now apply concat_rows_parts.
      - intros i Hi. apply in_seq in Hi. apply P. lia.
    Qed.
    Lemma product_multi_ok acc rest : Forall (fun x => valid x) acc ->
      Forall (fun l => length l = length acc /\ Forall (fun x => valid x) l) rest ->
      product_multiple_fusion_broadcast o fs acc rest = multiple_fusion_broadcast_loop PS acc rest /\
      multiple_fusion_broadcast_loop PS acc rest <> None.
    Proof.
      intros Fa Fr. destruct (@loop_parts rest acc (length acc) Fa eq_refl Fr) as (c & E & Vc & Lc & P).
      rewrite E. split; [|easy]. unfold product_multiple_fusion_broadcast.
      rewrite all_some_map with (h := fun i => map (fun s => fsec fs s i) c).
      2:{ intros i Hi. apply in_seq in Hi. apply P. lia. }
      f_equal.
      transitivity (concat_rows (length c) (map (fun i => map (fun s => fsec fs s i) c) (seq 0 (length fs))));
        [|now apply concat_rows_parts]. f_equal. clear - NE. destruct fs; [easy|]. cbn [length seq map]. apply map_length.
    Qed.
  End Abelian.

  (** all_sectors *)
  Lemma all_some_app A (l1 l2 : list (option A)) :
    all_some (l1 ++ l2) = match all_some l1, all_some l2 with Some x, Some y => Some (x ++ y) | _, _ => None end.
  Proof.
    induction l1 as [|[x|] l1 IH]; cbn [app all_some].
    - destruct (all_some l2); auto.
    - rewrite IH. destruct (all_some l1), (all_some l2); auto.
    - reflexivity.
  Qed.
  Definition all_ok (S : symmetry) (l : list sector) : Prop :=
    NoDup l /\ forall a, In a l <-> sym_valid S a = true.
  Lemma product_all_ok (fs : facs) : fs <> [] -> Forall (fun f => fusion_ring (fac_sym f)) fs ->
    Forall (fun f => exists l, fac_all f = Some l /\ all_ok (fac_sym f) l) fs ->
    exists l, product_all fs = Some l /\ all_ok (product_sym o fs) l.
  Proof.
    intros NE FR FA.
    assert (X : exists ll, all_some (map (@fac_all K) fs) = Some ll /\ all_ok (full_sym o fs) (cartesian ll)).
    { induction fs as [|f fs IH] using rev_ind; [easy|]. apply Forall_app in FR, FA.
      destruct FR as [FR Ff], FA as [FA Fa].
      inversion Ff as [|? ? Hf _]; subst. inversion Fa as [|? ? (l & El & Nl & Il) _]; subst.
      destruct fs as [|g fs].
      - cbn [app map all_some]. rewrite El. exists [l]. split; auto.
        unfold cartesian. cbn [fold_left]. unfold cart_step. cbn [flat_map]. rewrite app_nil_r, map_id.
        split; auto. intros a. rewrite (sa_valid (full_agree_single o Hf)). apply Il.
      - set (fs' := g :: fs) in *. assert (NE' : fs' <> []) by easy.
        destruct (IH NE' FR FA) as (ll & Ell & N & I).
        rewrite map_app, all_some_app, Ell. cbn [map all_some]. rewrite El. exists (ll ++ [l]). split; auto.
        unfold cartesian. rewrite fold_left_app. cbn [fold_left]. fold (cartesian ll).
        assert (R := full_ring o NE' FR). assert (Ag := full_agree_snoc NE' R Hf).
        assert (LL : forall x, In x (cartesian ll) -> length x = sym_len (full_sym o fs')).
        { intros x Hx. apply I in Hx. now apply (fr_len R). }
        split.
        + now apply NoDup_cart with (P := full_sym o fs').
        + intros a. rewrite (sa_valid Ag), (prod2_valid_iff R Hf).
          rewrite (@in_cart_step (full_sym o fs')) by auto. rewrite I, Il. reflexivity. }
    destruct X as (ll & E & A). exists (cartesian ll). split; [|exact A].
    unfold product_all. rewrite E. destruct fs; easy.
  Qed.
End More.
