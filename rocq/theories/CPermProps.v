(** C68: permuting the sites of a coupling, padding it with identities. *)
From Coq Require Import Reals ZArith List Bool Lia Permutation Sorted Arith.
From Verif Require Import Util Cplx GridModel GridProofs PermLegsSpec PermLegsProofs SiteModel CouplingModel CPermModel CPermSpec CPermProofs1 CPermProofs2 CPermProofs3 CPermProofs4 CPermProofs5.
Import ListNotations.
Open Scope nat_scope.

(** The decomposition into exchanges of neighbours: it yields the permutation, every letter is valid, it is a shortest one, and exactly the pairs of sites whose order changes are exchanged, each of them once. *)
Theorem C68_adjacent_transpositions : forall n q, is_perm n q ->
  let word := adjacent_transpositions q in
  letters n word /\ do_swaps (seq 0 n) word = q /\ length word = inversions q /\ (forall w, do_swaps (seq 0 n) w = q -> length word <= length w) /\
  NoDup (crossings (seq 0 n) word) /\ (forall a b, In (a, b) (crossings (seq 0 n) word) <-> a < b /\ before q b a).
Proof.
  intros n q Hq word. split; [now apply adjacent_letters|]. split; [now apply adjacent_result|].
  assert (L : length word = inversions q). { unfold word. rewrite (adjacent_rounds Hq). exact (proj1 (proj2 (proj2 (@rounds_spec q [] (seq 0 n) (seq_sorted 0 n) ltac:(symmetry; exact Hq))))). }
  split; [exact L|]. split; [|exact (crossings_adjacent Hq)].
  intros w Ew. rewrite L, <- Ew. assert (Q := inversions_swaps w (seq 0 n)). rewrite (inversions_sorted (seq_sorted 0 n)) in Q. lia.
Qed.
Example C68_transpositions_ex : adjacent_transpositions [2; 0; 3; 1] = [1; 0; 2] /\ inversions [2; 0; 3; 1] = 3 /\ crossings (seq 0 4) [1; 0; 2] = [(1, 2); (0, 2); (1, 3)].
Proof. repeat split. Qed.
(** the test for permutations *)
Theorem C68_is_permutation : forall l, is_permutation l = true <-> exists q, is_perm (length l) q /\ l = map Z.of_nat q.
Proof. apply is_permutation_spec. Qed.

(** distinct heights h_i of the sites: the levels of the call, or the own levels of the coupling *)
Definition heights_of {Site T} (c : coupling Site T) (levels : option (list (option Z))) (h : nat -> Z) : Prop :=
  let n := length (c_sites c) in
  match levels with Some l => l = map (fun i => Some (h i)) (seq 0 n) | None => c_levels c = map h (seq 0 n) end.
Definition select {A} (d : A) (l : list A) (q : list nat) : list A := map (fun i => nth i l d) q.

(** Sites and levels are permuted, and the operator is the braid in which the site with the higher level passes over the one with the lower level, for any way of writing the permutation as a product of exchanges of neighbours. *)
Theorem C68_permute : forall (Site Lg T : Type) (site_leg : Site -> Lg) (leg_eqb : Lg -> Lg -> bool) (PL : list nat -> list nat -> list (option Z) -> T -> T) (c : coupling Site T) (d : Site) q levels h,
  let n := length (c_sites c) in
  (forall l, leg_eqb l l = true) -> braid_relations (site_braid PL n) n ->
  is_perm n q -> length (c_levels c) = n -> c_cache c = [] -> heights_of c levels h -> NoDup (map h (seq 0 n)) ->
  exists c' self, permute site_leg leg_eqb PL c (map Z.of_nat q) levels None = Ok (c', self) /\
    c_sites c' = select d (c_sites c) q /\ c_levels c' = select 0%Z (c_levels c) q /\ c_cache c' = [] /\
    (forall word, letters n word -> do_swaps (seq 0 n) word = q -> c_op c' = level_braid (site_braid PL n) h word (seq 0 n) (c_op c)) /\
    c_sites self = c_sites c /\ c_op self = c_op c /\ c_levels self = c_levels c.
Proof.
  intros Site Lg T sl le PL c d q levels h n Rf BR Hq Hl Hc Hh ND.
  assert (E := @permute_spec Site Lg T sl le Rf PL c d q levels None Hq Hl Hc). cbv zeta in E. fold n in E.
  unfold heights_of in Hh. cbv zeta in Hh. fold n in Hh. rewrite E; [|intros l ->; now rewrite Hh, map_length, seq_length|intros l Q; discriminate Q]. clear E.
  assert (Hx : forall w o x, letters n w -> length o = n -> (forall i, In i o -> i < n) -> NoDup (map h o) ->
     rbraid PL n (fun i => match levels with Some l => nth i l None | None => Some (nth i (c_levels c) 0%Z) end) w [] o x = Ok (level_braid (site_braid PL n) h w o x)).
  { intros w o x L Lo Ho NDo. rewrite <- (rbraid_levels PL x L Lo NDo). revert o x Lo Ho NDo. induction w as [|pos w IH]; intros o x Lo Ho NDo; [reflexivity|]. inversion L as [|? ? L1 L2]; subst. cbn [rbraid nth tl].
    assert (Em : map (fun i => match levels with Some l => nth i l None | None => Some (nth i (c_levels c) 0%Z) end) o = map (fun i => Some (h i)) o).
    { apply map_ext_in. intros i Hi. specialize (Ho i Hi). destruct levels as [l|].
      - rewrite Hh. rewrite (@nth_map_lt nat (option Z) _ (seq 0 n) 0 None i) by (now rewrite seq_length). now rewrite seq_nth by exact Ho.
      - rewrite Hh. rewrite (@nth_map_lt nat Z _ (seq 0 n) 0 0%Z i) by (now rewrite seq_length). now rewrite seq_nth by exact Ho. }
    rewrite Em. destruct (chirality _ _ _) as [b|]; [|reflexivity]. apply IH; [exact L2|now rewrite swap_at_length| |].
    - intros i Hi. apply Ho. apply (Permutation_in _ (swap_at_perm pos o)). exact Hi.
    - rewrite <- swap_at_map. apply Permutation_NoDup with (l := map h o); [symmetry; apply swap_at_perm|exact NDo]. }
  rewrite Hx; [|now apply adjacent_letters|apply seq_length|intros i Hi; apply in_seq in Hi; lia|exact ND]. cbn [fst snd]. eexists. eexists. split; [reflexivity|]. cbn [c_sites c_levels c_cache c_op].
  split; [reflexivity|]. split; [reflexivity|]. split; [reflexivity|]. split; [|now split].
  intros w Lw Ew. apply (@level_braid_words T (site_braid PL n) n BR h); [now apply adjacent_letters|exact Lw|apply seq_length|exact ND|]. now rewrite Ew, (adjacent_result Hq).
Qed.
(** Permuting twice is permuting by the composition; the identity changes nothing. *)
Theorem C68_compose : forall (Site Lg T : Type) (site_leg : Site -> Lg) (leg_eqb : Lg -> Lg -> bool) (PL : list nat -> list nat -> list (option Z) -> T -> T) (c : coupling Site T) q p,
  let n := length (c_sites c) in
  (forall l, leg_eqb l l = true) -> braid_relations (site_braid PL n) n ->
  is_perm n q -> is_perm n p -> length (c_levels c) = n -> NoDup (c_levels c) -> c_cache c = [] ->
  exists c1 s1 c2 s2 s3, permute site_leg leg_eqb PL c (map Z.of_nat q) None None = Ok (c1, s1) /\ permute site_leg leg_eqb PL c1 (map Z.of_nat p) None None = Ok (c2, s2) /\
    permute site_leg leg_eqb PL c (map (fun i => Z.of_nat (nth i q 0)) p) None None = Ok (c2, s3).
Proof.
  intros Site Lg T sl le PL c q p n Rf BR Hq Hp Hl ND Hc.
  assert (Eh : c_levels c = map (fun i => nth i (c_levels c) 0%Z) (seq 0 n)). { apply list_eq_nth with (d := 0%Z); [now rewrite map_length, seq_length|]. intros i Hi. rewrite nth_map_lt with (d := 0) by (rewrite seq_length; lia). now rewrite seq_nth by lia. }
  set (h := fun i => nth i (c_levels c) 0%Z) in *. assert (NDh : NoDup (map h (seq 0 n))) by (now rewrite <- Eh).
  destruct (c_sites c) as [|d ss] eqn:Es.
  { (* no sites *)
    subst n. cbn [length] in *. assert (q = []) by (apply length_zero_iff_nil; exact (is_perm_length Hq)). assert (p = []) by (apply length_zero_iff_nil; exact (is_perm_length Hp)). subst q p.
    clear Eh NDh. clear h. destruct c as [s o lv ca]. cbn [c_sites c_levels c_cache c_op] in *. subst. destruct lv; [|discriminate Hl]. repeat eexists. }
  assert (Hn : n = length (c_sites c)) by (unfold n; now rewrite Es). clear Es. clearbody n.
  destruct (@C68_permute Site Lg T sl le PL c d q None h Rf) as [c1 [s1 [E1 [A1 [A2 [A3 [A4 _]]]]]]]; rewrite <- ?Hn; try assumption; [unfold heights_of; now rewrite <- Hn|].
  assert (N1 : length (c_sites c1) = n) by (rewrite A1; unfold select; rewrite map_length; apply (is_perm_length Hq)).
  assert (L1 : c_levels c1 = map (fun i => h (nth i q 0)) (seq 0 n)).
  { rewrite A2. unfold select. fold h. rewrite <- (is_perm_length Hq). transitivity (map h (map (fun i => nth i q 0) (seq 0 (length q)))); [now rewrite map_nth_seq|apply map_map]. }
  assert (ND1 : NoDup (map (fun i => h (nth i q 0)) (seq 0 n))). { rewrite <- L1, A2. apply Permutation_NoDup with (l := map h (seq 0 n)); [|exact NDh]. apply Permutation_map. symmetry. exact Hq. }
  destruct (@C68_permute Site Lg T sl le PL c1 d p None (fun i => h (nth i q 0)) Rf) as [c2 [s2 [E2 [B1 [B2 [B3 [B4 _]]]]]]]; rewrite ?N1; try assumption; [rewrite L1, map_length; apply seq_length|unfold heights_of; now rewrite N1|].
  destruct (@C68_permute Site Lg T sl le PL c d (map (fun i => nth i q 0) p) None h Rf) as [c3 [s3 [E3 [D1 [D2 [D3 [D4 _]]]]]]]; rewrite <- ?Hn; try assumption; [now apply compose_perm|unfold heights_of; now rewrite <- Hn|].
  exists c1, s1, c2, s2, s3. split; [exact E1|]. split; [exact E2|]. rewrite map_map in E3. rewrite E3. f_equal. f_equal. destruct c2 as [x1 x2 x3 x4], c3 as [y1 y2 y3 y4]. cbn [c_sites c_levels c_cache c_op] in *. subst x4 y4.
  assert (Sel : forall A (dd : A) l, select dd (select dd l q) p = select dd l (map (fun i => nth i q 0) p)).
  { intros A dd l. unfold select. rewrite map_map. apply map_ext_in. intros i Hi. apply (is_perm_In i Hp) in Hi. now rewrite nth_map_lt with (d := 0) by (now rewrite (is_perm_length Hq)). }
  assert (F : y2 = x2).
  { rewrite N1 in B4. rewrite <- Hn in A4, D4. rewrite (B4 (adjacent_transpositions p)) by (now apply adjacent_letters || now apply adjacent_result).
    rewrite (A4 (adjacent_transpositions q)) by (now apply adjacent_letters || now apply adjacent_result). assert (Hc' := compose_perm Hq Hp). rewrite (D4 (adjacent_transpositions (map (fun i => nth i q 0) p))) by (now apply adjacent_letters || now apply adjacent_result).
    symmetry. apply (@compose_braid T (site_braid PL n) n h q p); try assumption; try (now apply adjacent_letters); now apply adjacent_result. }
  assert (F1 : y1 = x1) by (rewrite B1, D1, A1; symmetry; apply Sel). assert (F3 : y3 = x3) by (rewrite B2, D2, A2; symmetry; apply Sel). now rewrite F, F1, F3.
Qed.
Theorem C68_identity : forall (Site Lg T : Type) (site_leg : Site -> Lg) (leg_eqb : Lg -> Lg -> bool) (PL : list nat -> list nat -> list (option Z) -> T -> T) (c : coupling Site T) levels,
  let n := length (c_sites c) in
  (forall l, leg_eqb l l = true) -> length (c_levels c) = n -> c_cache c = [] -> (forall l, levels = Some l -> length l = n) ->
  exists self, permute site_leg leg_eqb PL c (map Z.of_nat (seq 0 n)) levels None = Ok (c, self).
Proof.
  intros Site Lg T sl le PL c levels n Rf Hl Hc HL. assert (Hq : is_perm n (seq 0 n)) by (unfold is_perm; reflexivity).
  assert (W : adjacent_transpositions (seq 0 n) = []).
  { apply length_zero_iff_nil. rewrite (proj1 (proj2 (proj2 (C68_adjacent_transpositions n (seq 0 n) Hq)))). apply inversions_sorted, seq_sorted. }
  destruct (c_sites c) as [|d ss] eqn:Es.
  - destruct c as [s o lv ca]. cbn [c_sites c_levels c_cache c_op] in *. subst s ca n. cbn [length seq map] in *. destruct lv; [|discriminate Hl]. unfold permute. cbn -[Z.of_nat]. destruct levels as [[|? ?]|]; [|specialize (HL _ eq_refl); discriminate HL|]; eexists; reflexivity.
  - assert (Hn : n = length (c_sites c)) by (unfold n; now rewrite Es). assert (E := @permute_spec Site Lg T sl le Rf PL c d (seq 0 n) levels None). cbv zeta in E. rewrite <- Hn in E. rewrite E; try assumption; [|intros l Q; discriminate Q].
    rewrite W. cbn [rbraid fst snd]. eexists. f_equal. f_equal. clearbody n. clear Es E. destruct c as [s o lv ca]. cbn [c_sites c_levels c_cache c_op] in *. subst ca. f_equal.
    + apply list_eq_nth with (d := d); [rewrite map_length, seq_length; exact Hn|]. intros i Hi. rewrite map_length, seq_length in Hi. rewrite nth_map_lt with (d := 0) by (now rewrite seq_length). now rewrite seq_nth by exact Hi.
    + apply list_eq_nth with (d := 0%Z); [rewrite map_length, seq_length; now symmetry|]. intros i Hi. rewrite map_length, seq_length in Hi. rewrite nth_map_lt with (d := 0) by (now rewrite seq_length). now rewrite seq_nth by exact Hi.
Qed.
(** without a symmetry (or with trivial braiding): the entries of the permuted operator are those of the given one at the permuted indices; x_i and y_i are the row and column index of site i *)
Theorem C68_dense : forall (Site Lg : Type) (site_leg : Site -> Lg) (leg_eqb : Lg -> Lg -> bool) (c : coupling Site arr) q,
  let n := length (c_sites c) in
  (forall l, leg_eqb l l = true) -> is_perm n q -> length (c_levels c) = n -> NoDup (c_levels c) -> c_cache c = [] ->
  exists c' self, permute site_leg leg_eqb dense_PL c (map Z.of_nat q) None None = Ok (c', self) /\
    forall x y : nat -> nat, c_op c' (map x q ++ rev (map y q)) = c_op c (map x (seq 0 n) ++ rev (map y (seq 0 n))).
Proof.
  intros Site Lg sl le c q n Rf Hq Hl ND Hc. destruct (c_sites c) as [|d ss] eqn:Es.
  - subst n. cbn [length] in *. assert (q = []) by (apply length_zero_iff_nil; exact (is_perm_length Hq)). subst q. destruct c as [s o lv ca]. cbn [c_sites c_levels c_cache c_op] in *. subst. destruct lv; [|discriminate Hl]. repeat eexists.
  - assert (Hn : n = length (c_sites c)) by (unfold n; now rewrite Es). assert (E := @permute_spec Site Lg arr sl le Rf dense_PL c d q None None). cbv zeta in E. rewrite <- Hn in E. rewrite E; try assumption; try (intros l Q; discriminate Q).
    assert (Eh : c_levels c = map (fun i => nth i (c_levels c) 0%Z) (seq 0 n)). { apply list_eq_nth with (d := 0%Z); [now rewrite map_length, seq_length|]. intros i Hi. rewrite nth_map_lt with (d := 0) by (rewrite seq_length; lia). now rewrite seq_nth by lia. }
    rewrite (@rbraid_levels arr dense_PL n (fun i => nth i (c_levels c) 0%Z)); [|now apply adjacent_letters|apply seq_length|now rewrite <- Eh]. cbn [fst snd]. eexists. eexists. split; [reflexivity|]. cbn [c_op]. intros x y.
    rewrite <- (adjacent_result Hq) at 2 3. apply dense_braid; [now apply adjacent_letters|apply seq_length].
Qed.
(** over_braid: one entry per exchange, which says whether the site that moves up passes over *)
Theorem C68_over_braid : forall (Site Lg T : Type) (site_leg : Site -> Lg) (leg_eqb : Lg -> Lg -> bool) (PL : list nat -> list nat -> list (option Z) -> T -> T) (c : coupling Site T) (d : Site) q levels over,
  let n := length (c_sites c) in
  (forall l, leg_eqb l l = true) -> is_perm n q -> length (c_levels c) = n -> c_cache c = [] -> (forall l, levels = Some l -> length l = n) -> length over = inversions q ->
  exists self, permute site_leg leg_eqb PL c (map Z.of_nat q) levels (Some (map (fun b => Some b) over)) =
    Ok (Coup (select d (c_sites c) q) (explicit_braid (site_braid PL n) (adjacent_transpositions q) over (c_op c)) (select 0%Z (c_levels c) q) [], self).
Proof.
  intros Site Lg T sl le PL c d q levels over n Rf Hq Hl Hc HL HO. assert (Lw := proj1 (proj2 (proj2 (C68_adjacent_transpositions n q Hq)))). 
  assert (E := @permute_spec Site Lg T sl le Rf PL c d q levels (Some (map (fun b => Some b) over))). cbv zeta in E. fold n in E. rewrite E; try assumption; [|intros l Q; injection Q as <-; rewrite map_length; lia].
  rewrite rbraid_explicit by lia. cbn [fst snd]. eexists. reflexivity.
Qed.
(** Errors. *)
Theorem C68_not_a_permutation : forall (Site Lg T : Type) (site_leg : Site -> Lg) (leg_eqb : Lg -> Lg -> bool) (PL : list nat -> list nat -> list (option Z) -> T -> T) (c : coupling Site T) l levels obs,
  (~ exists q, is_perm (length l) q /\ l = map Z.of_nat q) -> permute site_leg leg_eqb PL c l levels obs = Err EInvalid.
Proof. intros Site Lg T sl le PL c l levels obs H. unfold permute. destruct (is_permutation l) eqn:E; [|reflexivity]. exfalso. apply H. now apply is_permutation_spec. Qed.
Theorem C68_wrong_counts : forall (Site Lg T : Type) (site_leg : Site -> Lg) (leg_eqb : Lg -> Lg -> bool) (PL : list nat -> list nat -> list (option Z) -> T -> T) (c : coupling Site T) q levels over,
  let n := length (c_sites c) in is_perm n q ->
  (forall l, levels = Some l -> length l <> n -> permute site_leg leg_eqb PL c (map Z.of_nat q) levels over = Err EInvalid) /\
  (length (c_levels c) = n -> c_cache c = [] -> forall obs, length obs <> inversions q -> permute site_leg leg_eqb PL c (map Z.of_nat q) None (Some obs) = Err EInvalid).
Proof.
  intros Site Lg T sl le PL c q levels over n Hq. assert (P : is_permutation (map Z.of_nat q) = true) by (apply is_permutation_spec; exists q; split; [now rewrite map_length, (is_perm_length Hq)|reflexivity]). split.
  - intros l -> Hl. unfold permute. rewrite P. cbn [negb]. fold n. now rewrite (proj2 (Nat.eqb_neq _ _) Hl).
  - intros Hl Hc obs Ho. unfold permute. rewrite P. cbn [negb]. fold n. rewrite map_length, Hl, Nat.eqb_refl. cbn [negb]. rewrite Hc. cbn [List.find]. rewrite map_to_nat. rewrite (proj1 (proj2 (proj2 (C68_adjacent_transpositions n q Hq)))). now rewrite (proj2 (Nat.eqb_neq _ _) Ho).
Qed.
(** Without over_braid the call is refused exactly if two sites whose order changes have no distinct levels. *)
Theorem C68_chirality : forall (Site Lg T : Type) (site_leg : Site -> Lg) (leg_eqb : Lg -> Lg -> bool) (PL : list nat -> list nat -> list (option Z) -> T -> T) (c : coupling Site T) q l,
  let n := length (c_sites c) in
  (forall l, leg_eqb l l = true) -> is_perm n q -> length (c_levels c) = n -> c_cache c = [] -> length l = n ->
  let lv i := nth i l None in
  ((exists a b, a < b /\ before q b a /\ undecided lv a b) -> permute site_leg leg_eqb PL c (map Z.of_nat q) (Some l) None = Err EChirality) /\
  ((forall a b, a < b -> before q b a -> ~ undecided lv a b) -> exists r, permute site_leg leg_eqb PL c (map Z.of_nat q) (Some l) None = Ok r).
Proof.
  intros Site Lg T sl le PL c q l n Rf Hq Hl Hc HL lv. destruct (c_sites c) as [|d ss] eqn:Es.
  - subst n. cbn [length] in *. assert (q = []) by (apply length_zero_iff_nil; exact (is_perm_length Hq)). subst q. split.
    + intros [a [b [_ [[l1 [l2 [l3 Q]]] _]]]]. destruct l1; discriminate Q.
    + intros _. destruct c as [s o cl ca]. cbn [c_sites c_levels c_cache c_op] in *. subst. destruct cl; [|discriminate Hl]. destruct l; [|discriminate HL]. repeat eexists.
  - assert (Hn : n = length (c_sites c)) by (unfold n; now rewrite Es). assert (E := @permute_spec Site Lg T sl le Rf PL c d q (Some l) None). cbv zeta in E. rewrite <- Hn in E. rewrite E; try assumption; [|intros l' Q; injection Q as <-; exact HL|intros l' Q; discriminate Q].
    clear E. fold lv. destruct (crossings_adjacent Hq) as [_ CR]. split.
    + intros [a [b [H1 [H2 H3]]]]. rewrite (@rbraid_error T PL n lv a b); [reflexivity|now apply adjacent_letters|apply seq_length|apply CR; now split|exact H3].
    + intros H. destruct (@rbraid_fine T PL n lv (adjacent_transpositions q) (seq 0 n) (c_op c)) as [y Ey]; [now apply adjacent_letters|apply seq_length|intros a b I0; apply CR in I0; now apply H|]. rewrite Ey. eexists. reflexivity.
Qed.
(** The result is cached: the same permutation gives the same coupling again, whatever levels and crossings are asked for (documented). *)
Theorem C68_cached : forall (Site Lg T : Type) (site_leg : Site -> Lg) (leg_eqb : Lg -> Lg -> bool) (PL : list nat -> list nat -> list (option Z) -> T -> T) (c : coupling Site T) q levels obs c' self levels2 obs2,
  let n := length (c_sites c) in
  (forall l, leg_eqb l l = true) -> is_perm n q -> length (c_levels c) = n -> c_cache c = [] -> permute site_leg leg_eqb PL c (map Z.of_nat q) levels obs = Ok (c', self) -> (forall l, levels2 = Some l -> length l = n) ->
  permute site_leg leg_eqb PL self (map Z.of_nat q) levels2 obs2 = Ok (c', self).
Proof.
  intros Site Lg T sl le PL c q levels obs c' self levels2 obs2 n Rf Hq Hl Hc E HL.
  assert (P : is_permutation (map Z.of_nat q) = true) by (apply is_permutation_spec; exists q; split; [now rewrite map_length, (is_perm_length Hq)|reflexivity]).
  assert (K : exists s o lv, c' = Coup s o lv [] /\ self = Coup (c_sites c) (c_op c) (c_levels c) [(map Z.of_nat q, (s, o, lv))]).
  { unfold permute in E. rewrite P, Hc in E. cbn [negb List.find app] in E. destruct (negb _) in E; [discriminate E|]. destruct (match obs with Some _ => _ | None => _ end) in E; [discriminate E|].
    destruct (permute_loop _ _ _ _ _) in E; [|discriminate E]. destruct (from_tensor _ _ _ _) in E; [|discriminate E]. destruct (negb _) in E; [discriminate E|]. injection E as <- <-. repeat eexists. }
  destruct K as [s [o [lv [-> ->]]]]. unfold permute. rewrite P. cbn [negb c_sites c_levels c_cache]. 
  assert (Q : length (match levels2 with Some l => l | None => map (fun x => Some x) (c_levels c) end) = n) by (destruct levels2; [now apply HL|now rewrite map_length]). fold n. rewrite Q, Nat.eqb_refl. cbn [negb List.find fst].
  rewrite (proj2 (list_eqb_spec _ _) eq_refl). reflexivity.
Qed.
(** The documentation asks for "a permutation of range(n)", n the number of sites; a permutation of fewer numbers is accepted and gives a coupling that cannot be permuted any more, one of more numbers reads beyond the end of the list of sites. *)
Definition demo_PL (_ _ : list nat) (_ : list (option Z)) (x : unit) : unit := x.
Definition demo_coupling : coupling nat unit := Coup [7; 8; 9] tt [1; 2; 3]%Z [].
Theorem C68_length_refuted :
  (exists c' self, permute (fun s => s) Nat.eqb demo_PL demo_coupling [1; 0]%Z None None = Ok (c', self) /\ c_sites c' = [8; 7; 9] /\ c_levels c' = [2; 1]%Z /\
    (forall q obs, length q = 3 -> is_permutation q = true -> permute (fun s => s) Nat.eqb demo_PL c' q None obs = Err EInvalid)) /\
  permute (fun s => s) Nat.eqb demo_PL demo_coupling [0; 1; 3; 2]%Z None None = Err EUndefined.
Proof.
  split; [|vm_compute; reflexivity]. eexists. eexists. split; [vm_compute; reflexivity|]. cbn [c_sites c_levels]. split; [reflexivity|]. split; [reflexivity|]. intros q obs Hq P. unfold permute. rewrite P. reflexivity.
Qed.
(** "levels: ... ignored" for a symmetric braiding: here the braiding does not depend on the levels at all, but equal levels are refused *)
Theorem C68_levels_ignored_refuted : (forall ci di l l' x, demo_PL ci di l x = demo_PL ci di l' x) /\
  permute (fun s => s) Nat.eqb demo_PL demo_coupling [1; 0; 2]%Z (Some [Some 0; Some 0; Some 0]%Z) None = Err EChirality /\
  permute (fun s => s) Nat.eqb demo_PL demo_coupling [1; 0; 2]%Z (Some [None; None; None]) None = Err EChirality.
Proof. split; [reflexivity|]. split; vm_compute; reflexivity. Qed.

(** Stretching: the tensors of the coupling at their positions, identities in between; the result is a valid coupling on the sites from the first to the last position. *)
Theorem C68_stretch : forall (Site Lg W Ten : Type) (site_leg : Site -> Lg) (leg_eqb : Lg -> Lg -> bool) (space_eqb : W -> W -> bool) (t_p t_pstar : Ten -> Lg) (t_wL t_wR : Ten -> W) (is_trivial : W -> bool) (identity_tensor : Site -> option W -> Ten),
  (forall l, leg_eqb l l = true) -> (forall a b, leg_eqb a b = true -> a = b) -> (forall w, space_eqb w w = true) ->
  (forall s w, t_p (identity_tensor s (Some w)) = site_leg s /\ t_pstar (identity_tensor s (Some w)) = site_leg s) -> (forall s w, t_wL (identity_tensor s (Some w)) = w /\ t_wR (identity_tensor s (Some w)) = w) ->
  forall (all_sites sites : list Site) (tensors : list Ten) (positions : list nat),
  sane site_leg leg_eqb space_eqb t_p t_pstar t_wL t_wR is_trivial sites tensors = true ->
  length positions = length tensors -> StronglySorted lt positions -> (forall p, In p positions -> p < length all_sites) ->
  Forall2 (fun s p => exists s', nth_error all_sites p = Some s' /\ site_leg s = site_leg s') sites positions ->
  let start := hd 0 positions in let width := last positions 0 + 1 - start in
  let stretched := layout t_wR identity_tensor all_sites positions tensors in
  stretch_with_identities site_leg leg_eqb space_eqb t_p t_pstar t_wL t_wR is_trivial identity_tensor sites tensors all_sites positions = Ok (firstn width (skipn start all_sites), stretched) /\
  (* dense: the coupling acts on the sites at the positions and is the identity on all others *)
  forall (dim : W -> nat) (entries : Ten -> nat -> nat -> nat -> nat -> C),
  (forall s w a p c q, a < dim w -> c < dim w -> entries (identity_tensor s (Some w)) a p c q = if (a =? c) && (p =? q) then C1 else C0) ->
  forall x y : nat -> nat, let dense := map (fun t => (dim (t_wR t), entries t)) in
  let between := seq start width in
  chain (dense stretched) 0 (map x between) (map y between) 0 =
  if forallb (fun k => existsb (Nat.eqb k) positions || (x k =? y k)) between then chain (dense tensors) 0 (map x positions) (map y positions) 0 else C0.
Proof.
  intros Site Lg W Ten sl le se tp tps wL wR tr0 idt Rf Sd Sr Ip Iw all sites ts ps Sn L SS Hp F start width stretched.
  assert (A0 : ascending ps = true). { clear -SS. induction SS as [|a l SS IH Fa]; [reflexivity|]. destruct l as [|b l]; [reflexivity|]. cbn [ascending] in *. rewrite IH, andb_true_r. apply Nat.ltb_lt. now inversion Fa. }
  assert (F' : Forall2 (fun s p => exists s', nth_error all p = Some s' /\ le (sl s) (sl s') = true) sites ps). { clear -F Rf. induction F as [|s p sites ps [s' [E1 E2]] F IH]; constructor; [|exact IH]. exists s'. split; [exact E1|]. rewrite E2. apply Rf. }
  split; [exact (@stretch_ok Site Lg W Ten sl le se tp tps wL wR tr0 idt Rf Sd Sr Ip Iw all sites ts ps Sn L A0 Hp F')|].
  intros dim entries He x y dense between. destruct ps as [|p ps], ts as [|f fs]; try discriminate L.
  - unfold sane in Sn. rewrite andb_false_r in Sn. discriminate Sn.
  - cbn [hd] in start. assert (Lt : last (p :: ps) 0 < length all) by (apply Hp, last_in). assert (Hz : forall k, In k (p :: ps) -> p <= k) by (intros k Hk; now apply (@ascending_le ps p)).
    assert (Up : forall k, In k (p :: ps) -> k <= last (p :: ps) 0). { clear -SS. revert p SS. induction ps as [|p' ps IH]; intros p SS k Hk; [destruct Hk as [ <- |[]]; cbn; lia|]. rewrite last_cons. inversion SS as [|? ? S1 S2]; subst. destruct Hk as [ <- |Hk]; [|now apply IH].
      assert (p < p') by now inversion S2. specialize (IH p' S1 p' (or_introl eq_refl)). lia. }
    assert (Q := @lay_chain Site W Ten wL wR idt Iw all dim entries He ps p f fs 0 (map x between) (map y between) 0). fold width in Q. change (last (p :: ps) 0 + 1 - p) with width in Q. unfold dense, stretched. rewrite Q; try assumption; try (unfold between; rewrite map_length, seq_length; reflexivity); [|cbn in L; lia].
    assert (NT : forall (g : nat -> nat) k, start <= k -> k < start + width -> nth (k - p) (map g between) 0 = g k). { intros g k H1 H2. rewrite nth_map_lt with (d := 0) by (unfold between; rewrite seq_length; unfold start in *; lia). unfold between. rewrite seq_nth by (unfold start in *; lia). f_equal. unfold start in *. lia. }
    assert (E1 : forallb (fun k => existsb (Nat.eqb k) (p :: ps) || (nth (k - p) (map x between) 0 =? nth (k - p) (map y between) 0)) (seq p width) = forallb (fun k => existsb (Nat.eqb k) (p :: ps) || (x k =? y k)) between).
    { apply forallb_ext_in. intros k Hk. apply in_seq in Hk. rewrite !NT by (unfold start; lia). reflexivity. }
    rewrite E1. destruct (forallb _ between); [|reflexivity].
    assert (Pm : forall g : nat -> nat, map (fun k => nth (k - p) (map g between) 0) (p :: ps) = map g (p :: ps)). { intros g. apply map_ext_in. intros k Hk. assert (Q1 := Hz k Hk). assert (Q2 := Up k Hk). apply NT; unfold start, width, start in *; lia. }
    rewrite !Pm. reflexivity.
Qed.
Theorem C68_stretch_errors : forall (Site Lg W Ten : Type) (site_leg : Site -> Lg) (leg_eqb : Lg -> Lg -> bool) (space_eqb : W -> W -> bool) (t_p t_pstar : Ten -> Lg) (t_wL t_wR : Ten -> W) (is_trivial : W -> bool) (identity_tensor : Site -> option W -> Ten),
  (forall a b, leg_eqb a b = true -> a = b) ->
  forall (all_sites sites : list Site) (tensors : list Ten) (positions : list nat), length sites = length tensors -> (forall p, In p positions -> p < length all_sites) ->
  (length positions <> length tensors \/ ~ StronglySorted lt positions \/ ~ Forall2 (fun s p => exists s', nth_error all_sites p = Some s' /\ site_leg s = site_leg s') sites positions) ->
  stretch_with_identities site_leg leg_eqb space_eqb t_p t_pstar t_wL t_wR is_trivial identity_tensor sites tensors all_sites positions = Err EInvalid.
Proof.
  intros Site Lg W Ten sl le se tp tps wL wR tr0 idt Sd all sites ts ps Ls Hp H. unfold stretch_with_identities. destruct (Nat.eqb_spec (length ps) (length ts)) as [L|L]; [|reflexivity]. cbn [negb].
  destruct (ascending ps) eqn:A0; [|reflexivity]. cbn [negb]. destruct H as [H|[H|H]]; [contradiction| |].
  - exfalso. apply H. clear -A0. induction ps as [|p ps IH]; constructor.
    + apply IH. destruct ps as [|p' ps]; [reflexivity|]. now apply ascending_cons in A0.
    + apply Forall_forall. intros k Hk. destruct ps as [|p' ps]; [destruct Hk|]. apply ascending_cons in A0. destruct A0 as [A1 A2]. assert (Q := @ascending_le ps p' k A2 Hk). lia.
  - assert (L' : length sites = length ps) by lia. clear -Sd Hp H L'.
    assert (Q : sites_match sl le sites ps all = Ok false); [|now rewrite Q].
    revert ps Hp H L'. induction sites as [|s sites IH]; intros [|p ps] Hp H L'; try discriminate L'; [exfalso; apply H; constructor|]. cbn [sites_match]. destruct (nth_error all p) as [s'|] eqn:E; [|apply nth_error_None in E; specialize (Hp p (or_introl eq_refl)); lia].
    destruct (le (sl s) (sl s')) eqn:M; [|reflexivity]. apply IH; [intros k Hk; apply Hp; now right| |cbn in L'; lia]. intros Q. apply H. constructor; [|exact Q]. exists s'. split; [exact E|now apply Sd].
Qed.

(** Examples.  A representation of the braid group: exponents of a phase *)
Definition phase_PL (ci _ : list nat) (lv : list (option Z)) (x : Z) : Z :=
  fold_right (fun k acc => match nth k lv None, nth (S k) lv None with Some 1%Z, Some 0%Z => (acc + 1)%Z | Some 0%Z, Some 1%Z => (acc - 1)%Z | _, _ => acc end) x (seq 0 (length ci - 1)).
Lemma phase_braid3 : forall i b x, S i < 3 -> site_braid phase_PL 3 i b x = (if b then x + 1 else x - 1)%Z.
Proof. intros i b x Hi. destruct i as [|[|i]]; [destruct b; reflexivity|destruct b; reflexivity|lia]. Qed.
Lemma phase_relations : braid_relations (site_braid phase_PL 3) 3.
Proof.
  split; [|split].
  - intros i b x Hi. rewrite !phase_braid3 by lia. destruct b; cbn [negb]; lia.
  - intros i j a b x Hij Hj. lia.
  - intros i x Hi. rewrite !phase_braid3 by lia. reflexivity.
Qed.
Definition phase_coupling : coupling nat Z := Coup [7; 8; 9] 0%Z [1; 2; 3]%Z [].
Example C68_permute_ex : exists self, permute (fun s => s) Nat.eqb phase_PL phase_coupling [2; 0; 1]%Z None None = Ok (Coup [9; 7; 8] (-2)%Z [3; 1; 2]%Z [], self).
Proof. eexists. vm_compute. reflexivity. Qed.
Example C68_permute_back_ex : exists self, permute (fun s => s) Nat.eqb phase_PL (Coup [9; 7; 8] (-2)%Z [3; 1; 2]%Z []) [1; 2; 0]%Z None None = Ok (Coup [7; 8; 9] 0%Z [1; 2; 3]%Z [], self).
Proof. eexists. vm_compute. reflexivity. Qed.
Example C68_over_ex : exists self, permute (fun s => s) Nat.eqb phase_PL phase_coupling [2; 0; 1]%Z None (Some [Some true; Some true]) = Ok (Coup [9; 7; 8] 2%Z [3; 1; 2]%Z [], self).
Proof. eexists. vm_compute. reflexivity. Qed.
(** a tensor as (site leg, left space, right space); spaces are their dimensions *)
Example C68_stretch_ex : stretch_with_identities (fun s : nat => s) Nat.eqb Nat.eqb (fun t : nat * nat * nat => fst (fst t)) (fun t => fst (fst t)) (fun t => snd (fst t)) (fun t => snd t) (Nat.eqb 1) (fun s w => match w with Some w => (s, w, w) | None => (s, 1, 1) end)
  [2; 3] [(2, 1, 4); (3, 4, 1)] [5; 2; 6; 7; 3; 2] [1; 4] = Ok ([2; 6; 7; 3], [(2, 1, 4); (6, 4, 4); (7, 4, 4); (3, 4, 1)]).
Proof. reflexivity. Qed.

Print Assumptions C68_adjacent_transpositions.
Print Assumptions C68_is_permutation.
Print Assumptions C68_permute.
Print Assumptions C68_compose.
Print Assumptions C68_identity.
Print Assumptions C68_dense.
Print Assumptions C68_over_braid.
Print Assumptions C68_not_a_permutation.
Print Assumptions C68_wrong_counts.
Print Assumptions C68_chirality.
Print Assumptions C68_cached.
Print Assumptions C68_length_refuted.
Print Assumptions C68_levels_ignored_refuted.
Print Assumptions C68_stretch.
Print Assumptions C68_stretch_errors.
