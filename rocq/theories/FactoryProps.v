(** C48: the backend factory. *)
From Coq Require Import String ZArith List Bool Lia.
From Verif Require Import Util ConfigModel FactoryModel.
Import ListNotations.
Open Scope string_scope.
Open Scope list_scope.

(** ** Specification *)
(** the backend class a call asks for, [None] if its first argument is of a wrong type *)
Definition wanted_tensor (c : call) : option string :=
  match c_symmetry c with
  | ANone => Some (default_tensor_backend (c_config c))
  | AStr s => Some s
  | ASym s => Some (if is_no_symmetry s then "no_symmetry" else if is_abelian s && has_trivial_braid s then "abelian" else "fusion_tree")
  | AOther => None
  end.
Definition wanted_block (c : call) : string := match c_block c with None => default_block_backend (c_config c) | Some b => b end.
Definition same_request (c c' : call) : Prop := wanted_tensor c = wanted_tensor c' /\ wanted_block c = wanted_block c'.
Definition kind_name (k : backend_kind) : string :=
  match k with NoSymmetryBackend => "no_symmetry" | AbelianBackend => "abelian" | FusionTreeBackend => "fusion_tree" end.
Definition block_names (b : block_kind) : list string :=
  match b with
  | Numpy d => if d =? "cpu" then ["numpy"; "cpu"] else []
  | Torch d => if d =? "cpu:0" then ["torch"] else if d =? "cuda" then ["gpu"] else if d =? "mps" then ["apple_silicon"] else []
  end.

(** ** Invariant *)
Definition entry_ok (available : block_kind -> bool) (n : nat) (p : string * string * backend) : Prop :=
  b_id (snd p) < n /\ fst (fst p) = kind_name (b_kind (snd p)) /\ In (snd (fst p)) (block_names (b_block (snd p))).
Definition inv (available : block_kind -> bool) (st : fstate) : Prop :=
  NoDup (map fst (cache st)) /\ NoDup (map (fun p => b_id (snd p)) (cache st)) /\ Forall (entry_ok available (created st)) (cache st).

Lemma lookup_In key l b : lookup key l = Some b -> In (key, b) l.
Proof.
  unfold lookup. destruct (find _ l) as [[[t q] x]|] eqn:E; [|discriminate]. intros H. injection H as ->. apply find_some in E. destruct E as [I J].
  cbn [fst snd] in J. apply andb_true_iff in J. destruct J as [J1 J2]. apply String.eqb_eq in J1, J2. subst. now destruct key.
Qed.
Lemma lookup_None key l : lookup key l = None -> ~ In key (map fst l).
Proof.
  unfold lookup. destruct (find _ l) as [x|] eqn:E; [discriminate|]. intros _ H. apply in_map_iff in H. destruct H as [[[t q] x] [H1 H2]]. cbn [fst] in H1. subst key.
  pose proof (find_none _ _ E _ H2) as N. cbn [fst snd] in N. rewrite !String.eqb_refl in N. discriminate.
Qed.
Lemma In_lookup key l b : NoDup (map fst l) -> In (key, b) l -> lookup key l = Some b.
Proof.
  intros ND HI. destruct (lookup key l) as [b'|] eqn:E.
  - apply lookup_In in E. f_equal. clear - ND HI E. induction l as [|p l IH]; [easy|]. cbn [map] in ND. inversion ND as [|? ? N1 N2]; subst.
    destruct HI as [->|HI], E as [E|E]; try congruence; auto.
    + exfalso. apply N1. apply in_map_iff. exists (key, b'). easy.
    + subst p. exfalso. apply N1. apply in_map_iff. exists (key, b). easy.
  - exfalso. apply (lookup_None _ _ E). apply in_map_iff. now exists (key, b).
Qed.

Section Steps.
  Variable available : block_kind -> bool.

  Lemma block_made s b : make_block_backend available s = inl b -> In s (block_names b).
  Proof.
    unfold make_block_backend. intros H.
    destruct (String.eqb_spec s "numpy") as [->|N1]; cbn [orb] in H.
    { destruct (available (Numpy "cpu")); inversion H; subst; cbn; auto. }
    destruct (String.eqb_spec s "cpu") as [->|N2].
    { destruct (available (Numpy "cpu")); inversion H; subst; cbn; auto. }
    destruct (String.eqb_spec s "torch") as [->|N3]. { destruct (available (Torch "cpu:0")); inversion H; subst; cbn; auto. }
    destruct (String.eqb_spec s "gpu") as [->|N4]. { destruct (available (Torch "cuda")); inversion H; subst; cbn; auto. }
    destruct (String.eqb_spec s "apple_silicon") as [->|N5]. { destruct (available (Torch "mps")); inversion H; subst; cbn; auto. }
    destruct (_ || _ || _); discriminate.
  Qed.

  (** one call: the cache only grows, a returned backend is in the cache under the requested key *)
  Lemma call_step c st st' r : inv available st -> do_call available c st = (st', r) ->
    inv available st' /\ (exists more, cache st' = cache st ++ more) /\
    (forall b, r = inl b -> exists tb, wanted_tensor c = Some tb /\ lookup (tb, wanted_block c) (cache st') = Some b) /\
    (forall e, r = inr e -> cache st' = cache st).
  Proof.
    intros I. unfold do_call, get_backend. fold (wanted_block c).
    match goal with |- match ?X with Some _ => _ | None => _ end = _ -> _ => assert (Etb : X = wanted_tensor c) by (unfold wanted_tensor; destruct (c_symmetry c); reflexivity); rewrite Etb; clear Etb end.
    destruct (wanted_tensor c) as [tb|] eqn:Ew.
    2:{ intros H; injection H as <- <-. split; [easy|]. split; [exists []; now rewrite app_nil_r|]. split; [discriminate|easy]. }
    destruct (lookup (tb, wanted_block c) (cache st)) as [b|] eqn:El.
    { intros H; injection H as <- <-. split; [easy|]. split; [exists []; now rewrite app_nil_r|]. split; [|discriminate]. intros b' Eb. injection Eb as ->. now exists tb. }
    destruct (make_block_backend available (wanted_block c)) as [blk|e] eqn:Eb.
    2:{ intros H; injection H as <- <-. split; [easy|]. split; [exists []; now rewrite app_nil_r|]. split; [discriminate|easy]. }
    match goal with |- match ?X with Some _ => _ | None => _ end = _ -> _ => set (kind := X) end.
    assert (Hk : forall k, kind = Some k -> tb = kind_name k).
    { intros k. unfold kind. destruct (String.eqb_spec tb "no_symmetry") as [->|]; [intros H; now injection H as <-|].
      destruct (String.eqb_spec tb "abelian") as [->|]; [intros H; now injection H as <-|].
      destruct (String.eqb_spec tb "fusion_tree") as [->|]; [intros H; now injection H as <-|discriminate]. }
    destruct kind as [k|].
    2:{ intros H; injection H as <- <-. split; [easy|]. split; [exists []; now rewrite app_nil_r|]. split; [discriminate|easy]. }
    specialize (Hk k eq_refl). destruct I as [I1 [I2 I3]].
    assert (I3' : Forall (entry_ok available (S (created st))) (cache st)).
    { revert I3. apply Forall_impl. intros p [A [B C]]. split; [lia|easy]. }
    match goal with |- (if ?x then _ else _) = _ -> _ => destruct x end.
    { intros H; injection H as <- <-. split; [split; [easy|split; easy]|]. split; [exists []; now rewrite app_nil_r|]. split; [discriminate|easy]. }
    intros H; injection H as <- <-. cbn [cache].
    assert (NI : inv available (FState (cache st ++ [(tb, wanted_block c, Backend (created st) k blk)]) (S (created st)))).
    { split; [|split]; cbn [cache created].
      - rewrite map_app. cbn [map fst]. apply NoDup_app_intro; [easy|repeat constructor; easy|]. intros x Hx [<-|[]]. now apply (lookup_None _ _ El).
      - rewrite map_app. cbn [map snd b_id]. apply NoDup_app_intro; [easy|repeat constructor; easy|]. intros x Hx [<-|[]].
        apply in_map_iff in Hx. destruct Hx as [p [E Hp]]. rewrite Forall_forall in I3. destruct (I3 p Hp) as [A _]. lia.
      - apply Forall_app. split; [easy|]. constructor; [|constructor]. split; [cbn; lia|]. split; [exact Hk|]. cbn. now apply block_made. }
    split; [exact NI|]. split; [eexists; reflexivity|]. split; [|discriminate]. intros b Hb. injection Hb as <-. exists tb. split; [reflexivity|].
    apply In_lookup; [exact (proj1 NI)|]. apply in_or_app. right. now left.
  Qed.

  Lemma lookup_app key l more b : NoDup (map fst (l ++ more)) -> lookup key l = Some b -> lookup key (l ++ more) = Some b.
  Proof. intros ND H. apply In_lookup; [easy|]. apply in_or_app. left. now apply lookup_In. Qed.

  (** along a history *)
  Lemma run_ok calls : forall st, inv available st -> exists st', inv available st' /\ (exists more, cache st' = cache st ++ more) /\
    forall i c b, nth_error calls i = Some c -> nth_error (run_calls available calls st) i = Some (inl b) ->
      exists tb, wanted_tensor c = Some tb /\ lookup (tb, wanted_block c) (cache st') = Some b.
  Proof.
    induction calls as [|c calls IH]; intros st I.
    - exists st. split; [easy|]. split; [exists []; now rewrite app_nil_r|]. intros [|i] c b H; discriminate.
    - cbn [run_calls]. destruct (do_call available c st) as [st1 x] eqn:E. destruct (call_step _ _ _ _ I E) as [I1 [[m1 M1] [R1 _]]].
      destruct (IH st1 I1) as [st' [I' [[m2 M2] R2]]]. exists st'. split; [easy|]. split; [exists (m1 ++ m2)%list; rewrite M2, M1; now rewrite app_assoc|].
      intros [|i] c' b H1 H2; cbn [nth_error] in H1, H2; [|now apply (R2 i)].
      injection H1 as <-. injection H2 as ->. destruct (R1 b eq_refl) as [tb [W L]]. exists tb. split; [easy|].
      rewrite M2. apply lookup_app; [rewrite <- M2; exact (proj1 I')|exact L].
  Qed.
End Steps.

Lemma initial_inv available : inv available (FState [] 0).
Proof. split; [constructor|]. split; constructor. Qed.

(** In any history of calls (with a configuration that may change between the calls): calls with the same request that succeed return the same
    object, and calls with different requests return different objects. *)
Theorem C48_one_backend_per_request available calls i j ci cj bi bj :
  nth_error calls i = Some ci -> nth_error calls j = Some cj ->
  nth_error (history available calls) i = Some (inl bi) -> nth_error (history available calls) j = Some (inl bj) ->
  (same_request ci cj <-> bi = bj) /\ (bi = bj <-> b_id bi = b_id bj).
Proof.
  intros Hi Hj Ri Rj. destruct (run_ok available calls _ (initial_inv available)) as [st [I [_ R]]].
  destruct (R i ci bi Hi Ri) as [ti [Wi Li]]. destruct (R j cj bj Hj Rj) as [tj [Wj Lj]].
  assert (KEY : b_id bi = b_id bj -> (ti, wanted_block ci) = (tj, wanted_block cj) /\ bi = bj).
  { intros E. destruct I as [I1 [I2 _]]. apply lookup_In in Li. apply lookup_In in Lj.
    assert (X : (ti, wanted_block ci, bi) = (tj, wanted_block cj, bj)).
    { clear - I2 Li Lj E. induction (cache st) as [|p l IH]; [easy|]. cbn [map] in I2. inversion I2 as [|? ? N1 N2]; subst.
      destruct Li as [Li|Li], Lj as [Lj|Lj]; try congruence; auto.
      - subst p. exfalso. apply N1. apply in_map_iff. exists (tj, wanted_block cj, bj). cbn [snd]. split; [congruence|easy].
      - subst p. exfalso. apply N1. apply in_map_iff. exists (ti, wanted_block ci, bi). cbn [snd]. split; [congruence|easy]. }
    injection X as -> -> ->. easy. }
  split.
  - split.
    + intros [E1 E2]. rewrite Wi, Wj in E1. injection E1 as ->. rewrite E2 in Li. rewrite Li in Lj. now injection Lj.
    + intros ->. destruct (KEY eq_refl) as [E _]. injection E as E1 E2. split; congruence.
  - split; [now intros ->|]. intros E. exact (proj2 (KEY E)).
Qed.

(** The returned backend is of the requested class and block backend, and supports the symmetry it was requested for. *)
Theorem C48_returned_backend available calls i c b :
  nth_error calls i = Some c -> nth_error (history available calls) i = Some (inl b) ->
  wanted_tensor c = Some (kind_name (b_kind b)) /\ In (wanted_block c) (block_names (b_block b)) /\
  (forall s, c_symmetry c = ASym s -> supports_symmetry (b_kind b) s = true).
Proof.
  intros Hi Ri. destruct (run_ok available calls _ (initial_inv available)) as [st [I [_ R]]]. destruct (R i c b Hi Ri) as [tb [W L]].
  apply lookup_In in L. destruct I as [_ [_ I3]]. rewrite Forall_forall in I3. destruct (I3 _ L) as [_ [E1 E2]]. cbn [fst snd] in E1, E2.
  split; [congruence|]. split; [easy|]. intros s Es. unfold wanted_tensor in W. rewrite Es in W. rewrite E1 in W. unfold supports_symmetry.
  destruct (is_no_symmetry s), (is_abelian s && has_trivial_braid s), (b_kind b); cbn in W; try discriminate; reflexivity.
Qed.

(** A call for a Symmetry never fails because of that symmetry: it fails only if the block backend cannot be made. *)
Theorem C48_symmetry_calls_succeed available st s c : c_symmetry c = ASym s -> (exists blk, make_block_backend available (wanted_block c) = inl blk) ->
  exists st' b, do_call available c st = (st', inl b).
Proof.
  intros Es [blk Eb]. unfold do_call, get_backend. fold (wanted_block c). rewrite Es.
  set (tb := if is_no_symmetry s then "no_symmetry" else _).
  destruct (lookup (tb, wanted_block c) (cache st)) as [b|]; [eexists; eexists; reflexivity|]. rewrite Eb.
  unfold tb. destruct (is_no_symmetry s) eqn:E1; [cbn; rewrite E1; eexists; eexists; reflexivity|].
  destruct (is_abelian s && has_trivial_braid s) eqn:E2; cbn; [rewrite E2; eexists; eexists; reflexivity|eexists; eexists; reflexivity].
Qed.

(** concrete history: U(1), SU(2) twice, a failing call, the default *)
Definition ex_calls : list call :=
  [Call default_config (ASym (SymInfo false true true)) None; Call default_config (ASym (SymInfo false false true)) (Some "numpy");
   Call default_config (AStr "fusion_tree") (Some "jax"); Call default_config (AStr "fusion_tree") None; Call default_config ANone (Some "cpu")].
Example C48_ex : history (fun k => match k with Numpy _ => true | Torch _ => false end) ex_calls =
  [inl (Backend 0 AbelianBackend (Numpy "cpu")); inl (Backend 1 FusionTreeBackend (Numpy "cpu")); inr FNotImplemented;
   inl (Backend 1 FusionTreeBackend (Numpy "cpu")); inl (Backend 2 AbelianBackend (Numpy "cpu"))].
Proof. reflexivity. Qed.

Print Assumptions C48_one_backend_per_request.
Print Assumptions C48_returned_backend.
Print Assumptions C48_symmetry_calls_succeed.
