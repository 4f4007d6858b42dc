(** Lemmas about the linear operators. *)
From Coq Require Import Reals Lra List Arith Lia Bool.
From Verif Require Import Cplx Hilbert LinOpModel LinOpSpec.
Import ListNotations.
Set Implicit Arguments. Unset Strict Implicit.
Open Scope nat_scope.

Section P.
  Variables (V T : Type) (h : hspace V) (to : tensor_ops V T).
  Hypothesis L : hlaws h.
  Notation linop := (linop V T).

  (** induction over operator trees *)
  Lemma linop_ind' (P : linop -> Prop) :
    (forall t w, P (OTensor t w)) -> (forall f g, P (OCustom f g)) -> (forall A, P A -> P (OWrap A)) ->
    (forall A more, P A -> Forall P more -> P (OSum A more)) -> (forall A s, P A -> P (OShift A s)) ->
    (forall A os b p, P A -> P (OProj A os b p)) -> forall A, P A.
  Proof.
    intros H1 H2 H3 H4 H5 H6. fix IH 1. intros [t w|f g|A|A more|A s|A os b p].
    - apply H1. - apply H2. - apply H3, IH.
    - apply H4; [apply IH|]. induction more as [|op more IHm]; constructor; [apply IH|exact IHm].
    - apply H5, IH. - apply H6, IH.
  Qed.

  Lemma fold_and (P : linop -> Prop) l : fold_right (fun op acc => P op /\ acc) True l <-> Forall P l.
  Proof. induction l as [|x l IH]; cbn [fold_right]; [split; auto|]. split; intros H; [destruct H|inversion H; subst]; [constructor|split]; auto; now apply IH. Qed.

  (** ** vector algebra *)
  Lemma add_0_r x : hadd h x (hzero h) = x. Proof. rewrite (hl_comm L). apply (hl_zero L). Qed.
  Lemma scale_0 a : hscale h a (hzero h) = hzero h. Proof. rewrite <- (hl_null L (hzero h)), (hl_mul L). f_equal. ring. Qed.
  Lemma inner_span_part_r x os v : hinner h x (span_part h os v) = csum (map (fun o => Cmul (hinner h o v) (hinner h x o)) os).
  Proof. induction os as [|o os IH]; cbn [span_part map csum fold_right]; [apply (inner_0_r L)|]. now rewrite (hl_inner_add L), (hl_inner_scale L), IH. Qed.
  Lemma csum_zero l : (forall c, In c l -> c = C0) -> csum l = C0.
  Proof. induction l as [|c l IH]; cbn [csum fold_right]; intros H; [reflexivity|]. rewrite (H c) by now left. change (fold_right Cadd C0 l) with (csum l). rewrite IH by (intros; apply H; now right). ring. Qed.
  Lemma csum_conj l : Cconj (csum l) = csum (map Cconj l).
  Proof. induction l as [|c l IH]; cbn [csum fold_right map]; [apply C_eq; cbn; ring|]. rewrite Cconj_add. now f_equal. Qed.
  Lemma csum_add A (f g : A -> C) l : csum (map (fun x => Cadd (f x) (g x)) l) = Cadd (csum (map f l)) (csum (map g l)).
  Proof. induction l as [|c l IH]; cbn [csum fold_right map]; [ring|]. change (fold_right Cadd C0) with csum. rewrite IH. ring. Qed.
  Lemma csum_scale A a (f : A -> C) l : csum (map (fun x => Cmul a (f x)) l) = Cmul a (csum (map f l)).
  Proof. induction l as [|c l IH]; cbn [csum fold_right map]; [ring|]. change (fold_right Cadd C0) with csum. rewrite IH. ring. Qed.
  (** the rank-one projections are self-adjoint *)
  Lemma span_part_self x os v : hinner h x (span_part h os v) = hinner h (span_part h os x) v.
  Proof.
    rewrite (hl_inner_conj L v (span_part h os x)), !inner_span_part_r, csum_conj, map_map. f_equal. apply map_ext. intros o.
    rewrite Cconj_mul, <- (hl_inner_conj L o x), <- (hl_inner_conj L v o). ring.
  Qed.
  Lemma projector_self os : adjoint_pair h (projector h os) (projector h os).
  Proof.
    intros x y. unfold projector, hsub. rewrite (hl_inner_add L), (hl_inner_scale L), (inner_add_l L), (inner_scale_l L), span_part_self.
    f_equal. f_equal. apply C_eq; cbn; ring.
  Qed.
  Lemma span_part_linear os : linear h (span_part h os).
  Proof.
    split.
    - intros x y. apply (inner_ext L). intros z. rewrite (hl_inner_add L), !span_part_self, (hl_inner_add L). reflexivity.
    - intros a x. apply (inner_ext L). intros z. rewrite (hl_inner_scale L), !span_part_self, (hl_inner_scale L). reflexivity.
  Qed.
  Lemma projector_linear os : linear h (projector h os).
  Proof.
    destruct (span_part_linear os) as [H1 H2]. split.
    - intros x y. unfold projector. rewrite H1. hvec L.
    - intros a x. unfold projector. rewrite H2. hvec L.
  Qed.
  Lemma linear_comp (A B : V -> V) : linear h A -> linear h B -> linear h (fun v => A (B v)).
  Proof. intros [A1 A2] [B1 B2]. split; intros; [now rewrite B1, A1|now rewrite B2, A2]. Qed.

  (** ** orthogonal lists *)
  Lemma orthogonal_cons o os : orthogonal h (o :: os) <-> (forall x, In x os -> hinner h o x = C0) /\ orthogonal h os.
  Proof.
    split.
    - intros H. split.
      + intros x Hx. destruct (In_nth os x (hzero h) Hx) as (k & Hk & E). specialize (H 0 (Datatypes.S k)). cbn [length nth] in H. rewrite E in H. apply H. lia.
      + intros i j Hij. specialize (H (Datatypes.S i) (Datatypes.S j)). cbn [length nth] in H. apply H. lia.
    - intros [H1 H2] i j Hij. destruct j as [|j]; [lia|]. destruct i as [|i]; cbn [nth length] in *.
      + apply H1, nth_In. lia.
      + apply H2. lia.
  Qed.
  Lemma inner_sym0 x y : hinner h x y = C0 -> hinner h y x = C0.
  Proof. intros E. rewrite (hl_inner_conj L), E. apply C_eq; cbn; ring. Qed.
  Lemma orthonormal_nil : orthonormal h []. Proof. split; [intros i j H; cbn in H; lia|intros x []]. Qed.
  Lemma orthonormal_snoc q x : orthonormal h q -> hinner h x x = C1 -> (forall y, In y q -> hinner h y x = C0) -> orthonormal h (q ++ [x]).
  Proof.
    intros [H1 H2] E H. split.
    - intros i j Hij. rewrite app_length in Hij. cbn [length] in Hij. destruct (Nat.eq_dec j (length q)) as [Ej|Nj].
      + subst j. rewrite (app_nth1 q [x]) by lia. rewrite app_nth2, Nat.sub_diag by lia. cbn [nth]. apply H, nth_In. lia.
      + rewrite !app_nth1 by lia. apply H1. lia.
    - intros y Hy. apply in_app_iff in Hy. destruct Hy as [Hy|[Hy|[]]]; [now apply H2|now subst].
  Qed.
  Lemma orthonormal_inner q x y : orthonormal h q -> In x q -> In y q -> x <> y -> hinner h x y = C0.
  Proof.
    intros [H _] Hx Hy N. destruct (In_nth q x (hzero h) Hx) as (i & Hi & Ei). destruct (In_nth q y (hzero h) Hy) as (j & Hj & Ej).
    destruct (lt_eq_lt_dec i j) as [[Hl|He]|Hl].
    - rewrite <- Ei, <- Ej. apply H. lia.
    - subst j. congruence.
    - apply inner_sym0. rewrite <- Ei, <- Ej. apply H. lia.
  Qed.

  (** ** sequential projection = projector, for orthogonal vectors *)
  Lemma project_out_inner o x r : hinner h x (project_out h o r) = Cadd (Copp (Cmul (hinner h o r) (hinner h x o))) (hinner h x r).
  Proof. unfold project_out. rewrite (inner_axpy_r L). ring. Qed.
  Lemma fold_project_orth os : forall v, orthogonal h os -> fold_left (fun r o => project_out h o r) os v = projector h os v.
  Proof.
    induction os as [|o os IH]; intros v HO; cbn [fold_left span_part].
    - unfold projector. cbn [span_part]. unfold hsub. now rewrite scale_0, add_0_r.
    - apply orthogonal_cons in HO. destruct HO as [H1 H2]. rewrite IH by assumption.
      assert (E : span_part h os (project_out h o v) = span_part h os v).
      { clear IH H2. induction os as [|o' os IH]; cbn [span_part]; [reflexivity|]. rewrite IH by (intros; apply H1; now right).
        rewrite project_out_inner. rewrite (inner_sym0 (H1 o' (or_introl eq_refl))).
        replace (Cadd (Copp (Cmul (hinner h o v) C0)) (hinner h o' v)) with (hinner h o' v) by ring. reflexivity. }
      unfold projector. rewrite E. cbn [span_part]. unfold project_out. hvec L.
  Qed.
  Lemma project_coeffs_snd os : forall v, snd (project_coeffs h os v) = fold_left (fun r o => project_out h o r) os v.
  Proof. induction os as [|o os IH]; intros v; cbn [project_coeffs fold_left]; [reflexivity|]. fold (project_out h o v). specialize (IH (project_out h o v)). destruct (project_coeffs h os (project_out h o v)). exact IH. Qed.
  Lemma project_coeffs_fst os : forall v, orthogonal h os -> fst (project_coeffs h os v) = map (fun o => hinner h o v) os.
  Proof.
    induction os as [|o os IH]; intros v HO; cbn [project_coeffs map]; [reflexivity|]. apply orthogonal_cons in HO. destruct HO as [H1 H2].
    fold (project_out h o v). specialize (IH (project_out h o v) H2). destruct (project_coeffs h os (project_out h o v)) as [cs r]. cbn [fst] in *. f_equal. rewrite IH.
    apply map_ext_in. intros o' Ho. rewrite project_out_inner. rewrite (inner_sym0 (H1 o' Ho)). ring.
  Qed.
  Lemma fold_penalty p os v : forall r, fold_left (fun r oc => axpy h (Cmul p (snd oc)) (fst oc) r) (combine os (map (fun o => hinner h o v) os)) r
    = hadd h r (hscale h p (span_part h os v)).
  Proof.
    induction os as [|o os IH]; intros r; cbn [map combine fold_left span_part fst snd].
    - now rewrite scale_0, add_0_r.
    - rewrite IH. hvec L.
  Qed.
  Definition pen (penalty : option C) : C := match penalty with Some p => p | None => C0 end.
  Lemma proj_matvec_orth A os penalty v : orthogonal h os ->
    proj_matvec h A os true penalty v = hadd h (projector h os (A (projector h os v))) (hscale h (pen penalty) (span_part h os v)).
  Proof.
    intros HO. unfold proj_matvec. assert (E1 := project_coeffs_snd os v). assert (E2 := project_coeffs_fst (os := os) v HO).
    destruct (project_coeffs h os v) as [cs r]. cbn [fst snd] in E1, E2. subst cs r. rewrite !fold_project_orth by assumption. destruct penalty as [p|]; cbn [pen].
    - apply fold_penalty.
    - now rewrite (hl_null L), add_0_r.
  Qed.
  Lemma proj_matvec_unprojected A os penalty v :
    proj_matvec h A os false penalty v = hadd h (A v) (hscale h (pen penalty) (span_part h os v)).
  Proof. unfold proj_matvec. destruct penalty as [p|]; cbn [pen]; [apply fold_penalty|now rewrite (hl_null L), add_0_r]. Qed.

  (** ** linearity *)
  Lemma linear_add (A B : V -> V) : linear h A -> linear h B -> linear h (fun v => hadd h (A v) (B v)).
  Proof. intros [A1 A2] [B1 B2]. split; intros; [rewrite A1, B1|rewrite A2, B2]; hvec L. Qed.
  Lemma linear_scale a (A : V -> V) : linear h A -> linear h (fun v => hscale h a (A v)).
  Proof. intros [A1 A2]. split; intros; [rewrite A1|rewrite A2]; hvec L. Qed.
  Lemma linear_id : linear h (fun v => v). Proof. split; reflexivity. Qed.
  Lemma linear_ext (A B : V -> V) : (forall v, A v = B v) -> linear h A -> linear h B.
  Proof. intros E [A1 A2]. split; intros; rewrite <- !E; auto. Qed.
  Lemma linear_project_out o : linear h (project_out h o).
  Proof. unfold project_out. split; intros; apply (inner_ext L); intros z; rewrite ?(inner_axpy_r L), ?(hl_inner_add L), ?(hl_inner_scale L), ?(inner_axpy_r L), ?(hl_inner_add L), ?(hl_inner_scale L); ring. Qed.
  Lemma linear_fold_project os : linear h (fun v => fold_left (fun r o => project_out h o r) os v).
  Proof. induction os as [|o os IH]; cbn [fold_left]; [apply linear_id|]. apply (linear_comp IH (linear_project_out o)). Qed.
  (** coefficients depend linearly on the vector, for any vectors *)
  Lemma coeffs_add os : forall x y, fst (project_coeffs h os (hadd h x y)) = map (fun p => Cadd (fst p) (snd p)) (combine (fst (project_coeffs h os x)) (fst (project_coeffs h os y))).
  Proof.
    induction os as [|o os IH]; intros x y; cbn [project_coeffs]; [reflexivity|]. fold (project_out h o x). fold (project_out h o y). fold (project_out h o (hadd h x y)).
    rewrite (proj1 (linear_project_out o)). specialize (IH (project_out h o x) (project_out h o y)).
    destruct (project_coeffs h os (hadd h (project_out h o x) (project_out h o y))), (project_coeffs h os (project_out h o x)), (project_coeffs h os (project_out h o y)).
    cbn [fst map combine snd] in *. f_equal; [apply (hl_inner_add L)|exact IH].
  Qed.
  Lemma coeffs_scale os a : forall x, fst (project_coeffs h os (hscale h a x)) = map (Cmul a) (fst (project_coeffs h os x)).
  Proof.
    induction os as [|o os IH]; intros x; cbn [project_coeffs]; [reflexivity|]. fold (project_out h o x). fold (project_out h o (hscale h a x)).
    rewrite (proj2 (linear_project_out o)). specialize (IH (project_out h o x)).
    destruct (project_coeffs h os (hscale h a (project_out h o x))), (project_coeffs h os (project_out h o x)).
    cbn [fst map] in *. f_equal; [apply (hl_inner_scale L)|exact IH].
  Qed.
  Lemma coeffs_len os : forall x, length (fst (project_coeffs h os x)) = length os.
  Proof. induction os as [|o os IH]; intros x; cbn [project_coeffs]; [reflexivity|]. specialize (IH (axpy h (Copp (hinner h o x)) o x)). destruct (project_coeffs h os _). cbn [fst length] in *. lia. Qed.
  Lemma fold_pen_lincomb p : forall os cs r, fold_left (fun r oc => axpy h (Cmul p (snd oc)) (fst oc) r) (combine os cs) r = hadd h r (hscale h p (lincomb h cs os)).
  Proof.
    induction os as [|o os IH]; intros [|c cs] r; cbn [combine fold_left lincomb fst snd]; try (now rewrite scale_0, add_0_r). rewrite IH. hvec L.
  Qed.
  Lemma lincomb_add os : forall c d, length c = length os -> length d = length os ->
    lincomb h (map (fun p => Cadd (fst p) (snd p)) (combine c d)) os = hadd h (lincomb h c os) (lincomb h d os).
  Proof.
    induction os as [|o os IH]; intros [|a c] [|b d] Hc Hd; cbn [length] in *; try lia; cbn [combine map lincomb fst snd]; [now rewrite (hl_zero L)|].
    rewrite IH by lia. hvec L.
  Qed.
  Lemma lincomb_scale a : forall os c, lincomb h (map (Cmul a) c) os = hscale h a (lincomb h c os).
  Proof. induction os as [|o os IH]; intros [|b c]; cbn [map lincomb]; try (now rewrite scale_0). rewrite IH. hvec L. Qed.
  Lemma linear_proj_matvec A os b p : linear h A -> linear h (proj_matvec h A os b p).
  Proof.
    intros HA. destruct b.
    - assert (E : forall v, proj_matvec h A os true p v = hadd h (fold_left (fun r o => project_out h o r) os (A (fold_left (fun r o => project_out h o r) os v)))
        (hscale h (pen p) (lincomb h (fst (project_coeffs h os v)) os))).
      { intros v. unfold proj_matvec. rewrite <- (project_coeffs_snd os v). destruct (project_coeffs h os v) as [cs r]. cbn [fst snd]. destruct p as [p|]; cbn [pen].
        - apply fold_pen_lincomb.
        - now rewrite (hl_null L), add_0_r. }
      apply (linear_ext (fun v => eq_sym (E v))). apply linear_add.
      + apply (linear_comp (linear_fold_project os) (linear_comp HA (linear_fold_project os))).
      + apply linear_scale. split.
        * intros x y. rewrite coeffs_add. apply lincomb_add; apply coeffs_len.
        * intros a x. rewrite coeffs_scale. apply lincomb_scale.
    - apply (linear_ext (fun v => eq_sym (proj_matvec_unprojected A os p v))). apply linear_add; [exact HA|]. apply linear_scale, span_part_linear.
  Qed.

  Lemma fold_sum (fs : list linop) v : forall r, fold_left (fun res op => axpy h C1 (matvec h to op v) res) fs r = hadd h r (sum_ops h (map (matvec h to) fs) v).
  Proof.
    induction fs as [|f fs IH]; intros r; cbn [fold_left map sum_ops fold_right].
    - now rewrite add_0_r.
    - rewrite IH. unfold axpy. rewrite (hl_one L). change (fold_right (fun f0 acc => hadd h (f0 v) acc) (hzero h) (map (matvec h to) fs)) with (sum_ops h (map (matvec h to) fs) v). rewrite (hl_assoc L), (hl_comm L (matvec h to f v)). reflexivity.
  Qed.
  Lemma linear_sum_ops fs : Forall (linear h) fs -> linear h (sum_ops h fs).
  Proof.
    induction 1 as [|f fs Hf HF IH].
    - split; intros; cbn; [symmetry; apply (hl_zero L)|symmetry; apply scale_0].
    - apply (linear_add Hf IH).
  Qed.

  Hypothesis TL : tensor_laws h to.
  Theorem matvec_linear A : all_custom (fun f _ => linear h f) A -> linear h (matvec h to A).
  Proof.
    induction A as [t w|f g|A IH|A more IH IHm|A s IH|A os b p IH] using linop_ind'; cbn [all_custom]; intros HA.
    - apply (tl_linear TL).
    - exact HA.
    - apply (linear_ext (A := matvec h to A)); [reflexivity|auto].
    - destruct HA as [H1 H2]. apply fold_and in H2. apply (linear_ext (A := fun v => hadd h (matvec h to A v) (sum_ops h (map (matvec h to) more) v))).
      + intros v. cbn [matvec]. symmetry. apply fold_sum.
      + apply linear_add; [now apply IH|]. apply linear_sum_ops. apply Forall_map. rewrite Forall_forall in *. intros op Hop. apply (IHm op Hop), (H2 op Hop).
    - apply (linear_ext (A := fun v => hadd h (hscale h s v) (matvec h to A v))); [reflexivity|]. apply linear_add; [apply linear_scale, linear_id|auto].
    - apply (linear_ext (A := proj_matvec h (matvec h to A) os b p)); [reflexivity|]. apply linear_proj_matvec. auto.
  Qed.

  (** ** to_tensor *)
  Lemma fold_tensor (more : list linop) : forall r t,
    fold_left (fun res op => match res, to_tensor to op with Some r, Some o => Some (t_comb to C1 o C1 r) | _, _ => None end) more r = Some t ->
    Forall (fun op => forall t, to_tensor to op = Some t -> forall v, t_dot to 1 t v = matvec h to op v) more ->
    exists r0, r = Some r0 /\ forall v, t_dot to 1 t v = hadd h (t_dot to 1 r0 v) (sum_ops h (map (matvec h to) more) v).
  Proof.
    induction more as [|op more IH]; intros r t E HF; cbn [fold_left] in E.
    - exists t. split; [exact E|]. intros v. cbn. now rewrite add_0_r.
    - inversion HF as [|? ? H1 H2]; subst. destruct (IH _ _ E H2) as (r1 & E1 & E2). destruct r as [r0|]; [|discriminate]. destruct (to_tensor to op) as [o|]; [|discriminate].
      injection E1 as E1. exists r0. split; [reflexivity|]. intros v. rewrite E2. cbn [map sum_ops fold_right].
      change (fold_right (fun f0 acc => hadd h (f0 v) acc) (hzero h) (map (matvec h to) more)) with (sum_ops h (map (matvec h to) more) v).
      rewrite <- E1, (tl_comb TL), !(hl_one L), (H1 o eq_refl). rewrite (hl_assoc L), (hl_comm L (matvec h to op v)). reflexivity.
  Qed.
  Theorem to_tensor_correct A : all_custom (fun _ _ => True) A -> forall t, to_tensor to A = Some t -> forall v, t_dot to 1 t v = matvec h to A v.
  Proof.
    induction A as [t0 w|f g|A IH|A more IH IHm|A s IH|A os b p IH] using linop_ind'; cbn [all_custom to_tensor matvec]; intros HA t E v; try discriminate.
    - destruct HA as [W|W]; subst w; cbn in E; injection E as E; subst t; [apply (tl_swap TL)|reflexivity].
    - now apply IH.
    - destruct HA as [H1 H2]. apply fold_and in H2. destruct (fold_tensor E) as (r0 & E1 & E2).
      + rewrite Forall_forall in *. intros op Hop. apply (IHm op Hop), (H2 op Hop).
      + rewrite E2, fold_sum. now rewrite (IH H1 _ E1).
    - destruct (to_tensor to A) as [r|]; [|discriminate]. injection E as E. subst t. rewrite (tl_comb TL), (tl_eye TL), (hl_one L), (IH HA r eq_refl). unfold axpy. apply (hl_comm L).
  Qed.
  Lemma to_tensor_defined A : (exists t, to_tensor to A = Some t) <-> has_tensor A.
  Proof.
    induction A as [t0 w|f g|A IH|A more IH IHm|A s IH|A os b p IH] using linop_ind'; cbn [has_tensor to_tensor].
    - destruct (w =? 1); split; eauto.
    - split; [intros [t E]; discriminate|tauto].
    - exact IH.
    - rewrite fold_and. rewrite <- IH. revert IHm. generalize (to_tensor to A). induction more as [|op more IHl]; intros r HF; cbn [fold_left].
      + split; [intros H; split; auto|tauto].
      + inversion HF as [|? ? H1 H2]; subst. rewrite (IHl _ H2). clear IHl. destruct r as [r|].
        * destruct (to_tensor to op) as [o|] eqn:Eo.
          -- split; intros [_ H]; split; eauto. constructor; [apply H1; eauto|exact H]. inversion H; auto.
          -- split; [intros [[t E] _]; discriminate|]. intros [_ H]. inversion H as [|? ? Ha Hb]; subst. apply H1 in Ha. destruct Ha as [t E]. discriminate.
        * split; intros [[t E] _]; discriminate.
    - rewrite <- IH. split; intros [t E]; destruct (to_tensor to A) as [r|]; eauto; discriminate.
    - split; [intros [t E]; discriminate|tauto].
  Qed.

  (** ** adjoints *)
  Lemma adjoint_ext (A A' B B' : V -> V) : (forall v, A v = A' v) -> (forall v, B v = B' v) -> adjoint_pair h A B -> adjoint_pair h A' B'.
  Proof. intros E1 E2 H x y. rewrite <- E1, <- E2. apply H. Qed.
  Lemma adjoint_add (A A' B B' : V -> V) : adjoint_pair h A B -> adjoint_pair h A' B' -> adjoint_pair h (fun v => hadd h (A v) (A' v)) (fun v => hadd h (B v) (B' v)).
  Proof. intros H1 H2 x y. rewrite (hl_inner_add L), (inner_add_l L), H1, H2. reflexivity. Qed.
  Lemma adjoint_scale s (A B : V -> V) : adjoint_pair h A B -> adjoint_pair h (fun v => hscale h s (A v)) (fun v => hscale h (Cconj s) (B v)).
  Proof. intros H x y. rewrite (hl_inner_scale L), (inner_scale_l L), H, Cconj_invol. reflexivity. Qed.
  Lemma adjoint_comp (A A' B B' : V -> V) : adjoint_pair h A B -> adjoint_pair h A' B' -> adjoint_pair h (fun v => A (A' v)) (fun v => B' (B v)).
  Proof. intros H1 H2 x y. rewrite H1, H2. reflexivity. Qed.
  Lemma adjoint_sum fs gs : Forall2 (adjoint_pair h) fs gs -> adjoint_pair h (sum_ops h fs) (sum_ops h gs).
  Proof.
    induction 1 as [|f g fs gs Hf HF IH].
    - intros x y. cbn. now rewrite (inner_0_r L), (inner_0_l L).
    - apply (adjoint_add Hf IH).
  Qed.
  Lemma span_part_adjoint os : adjoint_pair h (span_part h os) (span_part h os).
  Proof. intros x y. apply span_part_self. Qed.
  Lemma pen_conj p : pen (match p with Some p => Some (Cconj p) | None => None end) = Cconj (pen p).
  Proof. destruct p; cbn [pen]; [reflexivity|]. apply C_eq; cbn; ring. Qed.
  Theorem adjoint_correct A : all_custom (fun f g => adjoint_pair h f g) A -> all_orthogonal h A -> adjoint_pair h (matvec h to A) (matvec h to (adjoint to A)).
  Proof.
    induction A as [t0 w|f g|A IH|A more IH IHm|A s IH|A os b p IH] using linop_ind'; cbn [all_custom all_orthogonal adjoint]; intros HA HO.
    - apply (tl_dagger TL).
    - exact HA.
    - apply (IH HA HO).
    - destruct HA as [H1 H2]. destruct HO as [O1 O2]. apply fold_and in H2. apply fold_and in O2.
      apply (adjoint_ext (A := fun v => hadd h (matvec h to A v) (sum_ops h (map (matvec h to) more) v))
               (B := fun v => hadd h (matvec h to (adjoint to A) v) (sum_ops h (map (matvec h to) (map (adjoint to) more)) v))).
      + intros v. cbn [matvec]. symmetry. apply fold_sum.
      + intros v. cbn [matvec]. symmetry. apply fold_sum.
      + apply adjoint_add; [now apply IH|]. apply adjoint_sum. clear H1 O1 IH. induction more as [|op more IHl]; cbn [map]; [constructor|].
        inversion IHm; inversion H2; inversion O2; subst. constructor; auto.
    - apply (adjoint_add (adjoint_scale s (A := fun v => v) (B := fun v => v) (fun x y => eq_refl)) (IH HA HO)).
    - destruct HO as [O1 O2]. specialize (IH HA O1). destruct b.
      + specialize (O2 eq_refl). eapply adjoint_ext.
        * intros v. cbn [matvec]. symmetry. apply proj_matvec_orth. exact O2.
        * intros v. cbn [matvec]. symmetry. apply proj_matvec_orth. exact O2.
        * rewrite pen_conj. apply adjoint_add; [|apply adjoint_scale, span_part_adjoint].
          apply (adjoint_comp (projector_self os) (adjoint_comp IH (projector_self os))).
      + eapply adjoint_ext.
        * intros v. cbn [matvec]. symmetry. apply proj_matvec_unprojected.
        * intros v. cbn [matvec]. symmetry. apply proj_matvec_unprojected.
        * rewrite pen_conj. apply adjoint_add; [exact IH|apply adjoint_scale, span_part_adjoint].
  Qed.
  Lemma all_custom_adjoint A : all_custom (fun f g => adjoint_pair h f g) A -> all_custom (fun f g => adjoint_pair h f g) (adjoint to A).
  Proof.
    induction A as [t0 w|f g|A IH|A more IH IHm|A s IH|A os b p IH] using linop_ind'; cbn [all_custom adjoint]; auto.
    - intros H x y. rewrite (hl_inner_conj L (g y) x), <- H. symmetry. apply (hl_inner_conj L).
    - intros [H1 H2]. split; [auto|]. rewrite fold_and in *. apply Forall_map. rewrite Forall_forall in *. intros op Hop. apply IHm; auto.
  Qed.

  (** ** projected operators with orthonormal vectors *)
  Lemma span_part_zero os x : (forall o, In o os -> hinner h o x = C0) -> span_part h os x = hzero h.
  Proof. induction os as [|o os IH]; intros H; cbn [span_part]; [reflexivity|]. rewrite (H o) by now left. rewrite (hl_null L), (hl_zero L). apply IH. intros; apply H; now right. Qed.
  Lemma orthonormal_cons o os : orthonormal h (o :: os) <-> hinner h o o = C1 /\ (forall x, In x os -> hinner h o x = C0) /\ orthonormal h os.
  Proof.
    unfold orthonormal. rewrite orthogonal_cons. split.
    - intros [[H1 H2] H3]. split; [apply H3; now left|]. split; [exact H1|]. split; [exact H2|]. intros; apply H3; now right.
    - intros [H1 [H2 [H3 H4]]]. split; [split; assumption|]. intros x [E|Hx]; [now subst|auto].
  Qed.
  Lemma span_part_In os : orthonormal h os -> forall o, In o os -> span_part h os o = o.
  Proof.
    induction os as [|o' os IH]; intros HO o Ho; [destruct Ho|]. apply orthonormal_cons in HO. destruct HO as [H1 [H2 H3]]. cbn [span_part]. destruct Ho as [E|Ho].
    - subst o'. rewrite H1, (hl_one L), span_part_zero; [apply add_0_r|]. intros y Hy. apply inner_sym0, H2, Hy.
    - rewrite (H2 o Ho), (hl_null L), (hl_zero L). now apply IH.
  Qed.
  Lemma inner_span_part_In os : orthonormal h os -> forall o v, In o os -> hinner h o (span_part h os v) = hinner h o v.
  Proof. intros HO o v Ho. rewrite span_part_self. now rewrite span_part_In. Qed.
  Lemma span_part_span os v : lincomb h (map (fun o => hinner h o v) os) os = span_part h os v.
  Proof. induction os as [|o os IH]; cbn [map lincomb span_part]; [reflexivity|]. now rewrite IH. Qed.
  Lemma span_part_lincomb os c : orthonormal h os -> span_part h os (lincomb h c os) = lincomb h c os.
  Proof.
    intros HO. rewrite (linear_lincomb L (span_part_linear os)). f_equal. rewrite <- (map_id os) at 3. apply map_ext_in. intros o Ho. now apply span_part_In.
  Qed.
  Lemma span_part_idem os v : orthonormal h os -> span_part h os (span_part h os v) = span_part h os v.
  Proof. intros HO. rewrite <- (span_part_span os v) at 1 2. now apply span_part_lincomb. Qed.
  Lemma projector_perp os v : orthonormal h os -> forall o, In o os -> hinner h o (projector h os v) = C0.
  Proof. intros HO o Ho. unfold projector. rewrite (inner_sub_r L), inner_span_part_In by assumption. ring. Qed.
  Lemma projector_fix os v : (forall o, In o os -> hinner h o v = C0) -> projector h os v = v.
  Proof. intros H. unfold projector. rewrite span_part_zero by assumption. unfold hsub. now rewrite scale_0, add_0_r. Qed.
  Lemma projector_kill os o : orthonormal h os -> In o os -> projector h os o = hzero h.
  Proof. intros HO Ho. unfold projector. rewrite span_part_In by assumption. hvec L. Qed.

  (** ** Gram-Schmidt *)
  Section GS.
    Variable rcond : R.
    Hypothesis R0 : (0 <= rcond)%R.
    Lemma rscale_inner_l a x y : hinner h (rscale h a x) y = Cmul (RtoC a) (hinner h x y). Proof. apply (inner_rscale_l L). Qed.
    Lemma gs_step_cases res v : orthonormal h res ->
      let r := projector h res v in
      (gs_step h rcond res v = res /\ (hnorm h r <= rcond)%R) \/
      (gs_step h rcond res v = res ++ [rscale h (/ hnorm h r) r] /\ (rcond < hnorm h r)%R /\ orthonormal h (res ++ [rscale h (/ hnorm h r) r])).
    Proof.
      intros HO r. unfold gs_step. rewrite fold_project_orth by apply HO. fold r. destruct (Rlt_dec rcond (hnorm h r)) as [Hl|Hl].
      - right. split; [reflexivity|]. split; [exact Hl|]. apply orthonormal_snoc; [exact HO|apply (normalized L); lra|].
        intros y Hy. rewrite (inner_rscale_r L). unfold r. rewrite projector_perp by assumption. ring.
      - left. split; [reflexivity|lra].
    Qed.
    Lemma gs_orthonormal : forall vecs res, orthonormal h res -> orthonormal h (fold_left (gs_step h rcond) vecs res).
    Proof.
      induction vecs as [|v vecs IH]; intros res HO; cbn [fold_left]; [exact HO|]. apply IH. destruct (gs_step_cases v HO) as [[E _]|[E [_ H]]]; rewrite E; assumption.
    Qed.
    Lemma gs_length : forall vecs res, (length (fold_left (gs_step h rcond) vecs res) <= length res + length vecs)%nat.
    Proof.
      induction vecs as [|v vecs IH]; intros res; cbn [fold_left length]; [lia|]. specialize (IH (gs_step h rcond res v)).
      assert (length (gs_step h rcond res v) <= length res + 1)%nat; [|lia]. unfold gs_step. destruct (Rlt_dec _ _); rewrite ?app_length; cbn [length]; lia.
    Qed.
    Lemma gs_extends : forall vecs res, exists more, fold_left (gs_step h rcond) vecs res = res ++ more.
    Proof.
      induction vecs as [|v vecs IH]; intros res; cbn [fold_left]; [exists []; now rewrite app_nil_r|]. destruct (IH (gs_step h rcond res v)) as [m E]. rewrite E.
      unfold gs_step. destruct (Rlt_dec _ _); [rewrite <- app_assoc; eexists; reflexivity|now exists m].
    Qed.
    (** norm of the remainder can only shrink when the list grows *)
    Lemma span_part_app os os' v : span_part h (os ++ os') v = hadd h (span_part h os v) (span_part h os' v).
    Proof. induction os as [|o os IH]; cbn [app span_part]; [symmetry; apply (hl_zero L)|]. rewrite IH. apply (hl_assoc L). Qed.
    Lemma csum_nonneg_fst l : (forall c, In c l -> (0 <= fst c)%R) -> (0 <= fst (csum l))%R.
    Proof. induction l as [|c l IH]; intros H; [cbn; lra|]. change (fst (csum (c :: l))) with (fst c + fst (csum l))%R. assert (X := H c (or_introl eq_refl)). assert (Y := IH (fun c Hc => H c (or_intror Hc))). lra. Qed.
    Lemma span_part_norm os v : (0 <= fst (hinner h (span_part h os v) v))%R.
    Proof.
      rewrite <- span_part_self, inner_span_part_r. apply csum_nonneg_fst. intros c Hc. apply in_map_iff in Hc. destruct Hc as [o [E _]]. subst c.
      rewrite (hl_inner_conj L o v). destruct (hinner h o v) as [a b]. cbn. assert (X := Rle_0_sqr a). assert (Y := Rle_0_sqr b). unfold Rsqr in *. lra.
    Qed.
    Lemma projector_norm2 os v : orthonormal h os -> hnorm2 h (projector h os v) = (hnorm2 h v - fst (hinner h (span_part h os v) v))%R.
    Proof.
      intros HO. unfold hnorm2. rewrite <- projector_self.
      assert (E : projector h os (projector h os v) = projector h os v) by (apply projector_fix; intros; now apply projector_perp). rewrite E.
      unfold projector. rewrite (inner_sub_r L), span_part_self. cbn. ring.
    Qed.
    Lemma projector_shrinks os os' v : orthonormal h (os ++ os') -> orthonormal h os -> (hnorm h (projector h (os ++ os') v) <= hnorm h (projector h os v))%R.
    Proof.
      intros H1 H2. unfold hnorm. apply sqrt_le_1_alt. rewrite !projector_norm2 by assumption. rewrite span_part_app, (inner_add_l L).
      assert (X := span_part_norm os' v). change (fst (Cadd (hinner h (span_part h os v) v) (hinner h (span_part h os' v) v))) with (fst (hinner h (span_part h os v) v) + fst (hinner h (span_part h os' v) v))%R. lra.
    Qed.
    Lemma orthonormal_app_l q q' : orthonormal h (q ++ q') -> orthonormal h q.
    Proof.
      intros [H1 H2]. split.
      - intros i j Hij. specialize (H1 i j). rewrite app_length, !app_nth1 in H1 by lia. apply H1. lia.
      - intros x Hx. apply H2. apply in_app_iff. now left.
    Qed.
    Lemma gs_residual : forall vecs res, orthonormal h res -> forall v, In v vecs -> (hnorm h (projector h (fold_left (gs_step h rcond) vecs res) v) <= rcond)%R.
    Proof.
      induction vecs as [|x vecs IH]; intros res HO v Hv; [destruct Hv|]. cbn [fold_left].
      assert (HO' : orthonormal h (gs_step h rcond res x)) by (destruct (gs_step_cases x HO) as [[E _]|[E [_ H]]]; rewrite E; assumption).
      destruct Hv as [E|Hv]; [subst x|now apply IH].
      destruct (gs_extends vecs (gs_step h rcond res v)) as [m E]. assert (HOf := gs_orthonormal vecs HO'). rewrite E in *.
      eapply Rle_trans; [apply projector_shrinks; assumption|].
      destruct (gs_step_cases v HO) as [[E1 Hn]|[E1 [Hn HO1]]]; rewrite E1; [exact Hn|].
      assert (Z : projector h (res ++ [rscale h (/ hnorm h (projector h res v)) (projector h res v)]) v = hzero h).
      { set (r := projector h res v) in *. set (q := rscale h (/ hnorm h r) r) in *. unfold projector. rewrite span_part_app. cbn [span_part].
        assert (Eq : hscale h (hinner h q v) q = r).
        { assert (Ev : v = hadd h (span_part h res v) r) by (unfold r, projector; hvec L).
          assert (Hq : hinner h q v = RtoC (hnorm h r)).
          { rewrite Ev. rewrite (hl_inner_add L). unfold q. rewrite !(inner_rscale_l L), (inner_real L), <- (norm_sq L).
            assert (Z : hinner h r (span_part h res v) = C0).
            { unfold r. rewrite <- projector_self. replace (projector h res (span_part h res v)) with (hzero h); [apply (inner_0_r L)|].
              unfold projector. rewrite span_part_idem by assumption. hvec L. }
            rewrite Z. apply C_eq; cbn; field; lra. }
          rewrite Hq. unfold q, rscale. rewrite (hl_mul L). replace (Cmul (RtoC (hnorm h r)) (RtoC (/ hnorm h r))) with C1; [apply (hl_one L)|]. apply C_eq; cbn; field; lra. }
        rewrite Eq. unfold r, projector. hvec L. }
      rewrite Z. rewrite (proj2 (norm_0_iff L (hzero h)) eq_refl). exact R0.
    Qed.
  End GS.
  (** ** spans *)
  Lemma span_add l x y : in_span h l x -> in_span h l y -> in_span h l (hadd h x y).
  Proof.
    intros [c [Hc Ec]] [d [Hd Ed]]. exists (map (fun p => Cadd (fst p) (snd p)) (combine c d)). split.
    - rewrite map_length, combine_length. lia.
    - now rewrite lincomb_add, Ec, Ed.
  Qed.
  Lemma span_scale l a x : in_span h l x -> in_span h l (hscale h a x).
  Proof. intros [c [Hc Ec]]. exists (map (Cmul a) c). split; [now rewrite map_length|]. now rewrite lincomb_scale, Ec. Qed.
  Lemma lincomb_zeros l : lincomb h (repeat C0 (length l)) l = hzero h.
  Proof. induction l as [|x l IH]; cbn [length repeat lincomb]; [reflexivity|]. rewrite IH, (hl_null L). apply (hl_zero L). Qed.
  Lemma span_zero l : in_span h l (hzero h).
  Proof. exists (repeat C0 (length l)). split; [apply repeat_length|symmetry; apply lincomb_zeros]. Qed.
  Lemma span_In l x : In x l -> in_span h l x.
  Proof.
    induction l as [|y l IH]; [intros []|]. intros [E|Hx].
    - subst y. exists (C1 :: repeat C0 (length l)). split; [cbn [length]; now rewrite repeat_length|]. cbn [lincomb]. now rewrite lincomb_zeros, (hl_one L), add_0_r.
    - destruct (IH Hx) as [c [Hc Ec]]. exists (C0 :: c). split; [cbn [length]; lia|]. cbn [lincomb]. now rewrite (hl_null L), (hl_zero L).
  Qed.
  Lemma span_part_in_span l os v : (forall o, In o os -> in_span h l o) -> in_span h l (span_part h os v).
  Proof. induction os as [|o os IH]; intros H; cbn [span_part]; [apply span_zero|]. apply span_add; [apply span_scale, H; now left|apply IH; intros; apply H; now right]. Qed.
  Lemma gs_span rcond (R0 : (0 <= rcond)%R) (all : list V) : forall vecs res, orthonormal h res -> (forall x, In x res -> in_span h all x) -> (forall x, In x vecs -> In x all) ->
    forall x, In x (fold_left (gs_step h rcond) vecs res) -> in_span h all x.
  Proof.
    induction vecs as [|v vecs IH]; intros res HO Hr Hv x Hx; cbn [fold_left] in Hx; [auto|].
    destruct (gs_step_cases R0 v HO) as [[E _]|[E [_ HO']]]; rewrite E in Hx.
    - apply (IH res); auto. intros; apply Hv; now right.
    - apply (IH _ HO') in Hx; [exact Hx| |intros; apply Hv; now right]. intros y Hy. apply in_app_iff in Hy. destruct Hy as [Hy|[Hy|[]]]; [auto|]. subst y. unfold rscale. apply span_scale.
      unfold projector, hsub. apply span_add; [apply span_In, Hv; now left|]. apply span_scale, span_part_in_span, Hr.
  Qed.
  (** already orthonormal lists are left alone *)
  Lemma gs_fixed rcond : (0 <= rcond < 1)%R -> forall vecs res, orthonormal h (res ++ vecs) -> fold_left (gs_step h rcond) vecs res = res ++ vecs.
  Proof.
    intros HR. induction vecs as [|v vecs IH]; intros res HO; cbn [fold_left]; [now rewrite app_nil_r|].
    assert (Ev : hinner h v v = C1) by (apply (proj2 HO), in_app_iff; right; now left).
    assert (Nv : hnorm h v = 1%R). { unfold hnorm, hnorm2. rewrite Ev. cbn. apply sqrt_1. }
    assert (HOr : orthonormal h res) by (eapply orthonormal_app_l; exact HO).
    assert (Pv : projector h res v = v).
    { apply projector_fix. intros o Ho. destruct (In_nth res o (hzero h) Ho) as (k & Hk & Ek). destruct HO as [H1 _]. specialize (H1 k (length res)).
      rewrite app_length in H1. cbn [length] in H1. rewrite app_nth1, Ek, app_nth2, Nat.sub_diag in H1 by lia. apply H1. lia. }
    assert (E : gs_step h rcond res v = res ++ [v]).
    { destruct (gs_step_cases (proj1 HR) v HOr) as [[_ H]|[E _]]; rewrite Pv in *; [lra|]. rewrite E. repeat f_equal. rewrite Nv, Rinv_1. apply (hl_one L). }
    rewrite E, IH; rewrite <- app_assoc; [reflexivity|exact HO].
  Qed.

  (** ** unwrapping *)
  Lemma unwrap_loop_spec : forall n (A : linop), unwrap_loop n A = if depth A <? n then Some (core A) else None.
  Proof.
    induction n as [|n IH]; intros A; cbn [unwrap_loop]; [reflexivity|].
    destruct A; cbn [original depth core]; rewrite ?IH; try reflexivity.
  Qed.

  (** ** direct sums *)
  Lemma ds_inner_sum x y : length y = length x -> ds_inner h x y = Some (sum_inner h x y).
  Proof.
    intros E. unfold ds_inner, sum_inner. rewrite E, Nat.eqb_refl. destruct (combine x y) as [|p ps]; cbn [map fold_right]; [reflexivity|]. f_equal.
    set (f := fun q : V * V => hinner h (fst q) (snd q)). change (hinner h (fst p) (snd p)) with (f p). change (fun acc q => Cadd acc (hinner h (fst q) (snd q))) with (fun acc q => Cadd acc (f q)).
    generalize (f p). induction ps as [|q ps IH]; intros c; cbn [fold_left fold_right map]; [ring|]. rewrite IH. ring.
  Qed.
  Lemma sum_inner_cons a x b y : sum_inner h (a :: x) (b :: y) = Cadd (hinner h a b) (sum_inner h x y). Proof. reflexivity. Qed.
  Lemma ds_norm_inner x : x <> [] -> ds_norm h x = sqrt (fst (sum_inner h x x)).
  Proof.
    destruct x as [|x0 xs]; [congruence|]. intros _. unfold ds_norm. f_equal. rewrite (norm_sq L), sum_inner_cons. unfold hnorm2.
    change (fst (Cadd (hinner h x0 x0) (sum_inner h xs xs))) with (fst (hinner h x0 x0) + fst (sum_inner h xs xs))%R.
    generalize (fst (hinner h x0 x0)). induction xs as [|x xs IH]; intros r; cbn [fold_left]; [cbn; ring|]. rewrite IH, sum_inner_cons, (norm_sq L). unfold hnorm2. 
    change (fst (Cadd (hinner h x x) (sum_inner h xs xs))) with (fst (hinner h x x) + fst (sum_inner h xs xs))%R. ring.
  Qed.
  Lemma ds_matvec_inner (ops : list linop) : Forall (fun A => all_custom (fun f g => adjoint_pair h f g) A /\ all_orthogonal h A) ops -> forall x y,
    length x = length ops -> length y = length ops ->
    sum_inner h x (map (fun p => matvec h to (fst p) (snd p)) (combine ops y)) = sum_inner h (map (fun p => matvec h to (fst p) (snd p)) (combine (ds_adjoint to ops) x)) y.
  Proof.
    induction 1 as [|A ops [HA HO] HF IH]; intros [|a x] [|b y] Hx Hy; cbn [length] in *; try lia; [reflexivity|].
    cbn [ds_adjoint map combine fst snd]. rewrite !sum_inner_cons. change (map (adjoint to) ops) with (ds_adjoint to ops). rewrite IH by lia. f_equal. apply (adjoint_correct HA HO).
  Qed.
End P.
