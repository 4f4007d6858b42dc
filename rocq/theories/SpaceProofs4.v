From Verif Require Import Util StableSort RowModel RowProofs GridModel GridProofs SymModel SpaceModel SpaceSpec SpaceProofs SpaceProofs2 SpaceProofs3.
Set Implicit Arguments. Unset Strict Implicit.
Open Scope nat_scope.

(** * from_basis *)
Definition count_in (s : sector) (l : list sector) : nat := length (filter (fun x => row_eqb x s) l).
Lemma combine_self A (l : list A) : combine l l = map (fun x => (x, x)) l.
Proof. induction l; cbn; congruence. Qed.
Lemma take_ext_len A (d : A) l p : length (take d l p) = length p.
Proof. apply take_length. Qed.

Section FromBasis.
  Variable S : symm.
  Hypothesis SO : symm_ok S.
  Variable l : list sector.
  Hypothesis HV : forall s, In s l -> sym_valid S s = true.
  Let perm := lexsort_indices l.
  Let srt := take [] l perm.
  Let G := groups row_eqb (combine srt srt).
  Let diffs := find_row_differences true srt.
  Lemma fb_width : same_width (sym_len S) l.
  Proof. apply Forall_forall. intros s H. apply (so_len SO), HV, H. Qed.
  Lemma fb_Perm : Permutation srt l.
  Proof. apply (sorted_Permutation l). Qed.
  Lemma fb_sorted : weakly_sorted srt.
  Proof. apply (sorted_weakly fb_width). Qed.
  Lemma fb_key g x : In g G -> In x (snd g) -> x = fst g.
  Proof.
    intros Hg Hx. assert (Hu : In (fst g, x) (ungroup G)) by (unfold ungroup; apply in_flat_map; exists g; split; [exact Hg | apply in_map; exact Hx]).
    unfold G in Hu. rewrite (groups_ungroup row_eqb_eq), combine_self in Hu. apply in_map_iff in Hu as (y & E & _). congruence.
  Qed.
  Lemma fb_srt : srt = flat_map (fun g => repeat (fst g) (length (snd g))) G.
  Proof.
    transitivity (map snd (ungroup G)).
    - unfold G. rewrite (groups_ungroup row_eqb_eq), combine_self, map_map. symmetry. apply map_id.
    - unfold ungroup. rewrite flat_map_map_out. apply flat_map_ext_in. intros g Hg. rewrite map_map. cbn.
      rewrite map_id. assert (K := fun x => @fb_key g x Hg). revert K. generalize (snd g). induction l0 as [|x t IH]; intros K; [reflexivity|]. cbn. rewrite (K x), <- IH by (cbn; auto; intros; apply K; cbn; auto). reflexivity.
  Qed.
  Lemma fb_sectors : take [] srt (removelast diffs) = map fst G.
  Proof.
    unfold G. rewrite <- (@frd_groups _ _ row_eqb_eq _ []) by reflexivity. rewrite map_map. cbn [fst].
    unfold take, adj, diffs, find_row_differences. destruct (frd row_eqb true srt) as [|d D]; [reflexivity|]. revert d. induction D as [|e D IH]; intros d; [reflexivity|].
    change (removelast (d :: e :: D)) with (d :: removelast (e :: D)). cbn [map tl combine fst]. f_equal. apply (IH e).
  Qed.
  Lemma fb_occ : map (fun i => nth (i + 1) diffs 0 - nth i diffs 0) (seq 0 (length (take [] srt (removelast diffs)))) = map (fun g => length (snd g)) G.
  Proof.
    rewrite take_length. assert (EL : length (removelast diffs) = length diffs - 1).
    { generalize diffs. induction diffs0 as [|d D IH]; [reflexivity|]. destruct D as [|e D]; [reflexivity|]. change (removelast (d :: e :: D)) with (d :: removelast (e :: D)). cbn [length] in *. lia. }
    rewrite EL. unfold G. rewrite <- (@frd_groups _ _ row_eqb_eq _ []) by reflexivity. rewrite map_map. cbn [snd]. fold diffs. fold (find_row_differences true srt). fold diffs.
    rewrite <- (adj_seq (fun a b => length (slice srt a b))). apply map_ext_in. intros i Hi. apply in_seq in Hi. rewrite Nat.add_1_r.
    assert (HB : nth (Datatypes.S i) diffs 0 <= length srt) by (apply (frd_le (eqb := row_eqb)); apply nth_In; fold diffs; unfold diffs, find_row_differences in *; lia).
    unfold slice. rewrite firstn_length, skipn_length. lia.
  Qed.
  Lemma fb_keys_sorted : strictly_sorted (map fst G).
  Proof. apply (groups_sorted row_eqb_eq lex_lt_trans). rewrite combine_fst by reflexivity. apply fb_sorted. Qed.
  Lemma fb_keys s : In s (map fst G) <-> In s l.
  Proof.
    unfold G. rewrite (groups_keys_In row_eqb_eq), combine_fst by reflexivity. split; apply Permutation_in; [apply fb_Perm | symmetry; apply fb_Perm].
  Qed.
  Lemma fb_count g : In g G -> length (snd g) = count_in (fst g) l.
  Proof.
    destruct g as [k xs]. intros Hg. cbn [fst snd].
    rewrite (groups_content row_eqb_eq (l := combine srt srt) (strictly_sorted_NoDup fb_keys_sorted) Hg) at 1. rewrite map_length, combine_self.
    unfold count_in. assert (P := Permutation_length (Permutation_filter' (fun x => row_eqb x k) fb_Perm)). rewrite <- P.
    clear. induction srt as [|x t IH]; [reflexivity|]. cbn. destruct (row_eqb x k); cbn; rewrite IH; reflexivity.
  Qed.
  Lemma basis_mults_some (g : list (sector * list sector)) :
    basis_mults S (map fst g) (map (fun q => length (snd q)) g) =
    if forallb (fun q => length (snd q) mod sym_dim S (fst q) =? 0) g then Some (map (fun q => length (snd q) / sym_dim S (fst q)) g) else None.
  Proof.
    induction g as [|q g IH]; [reflexivity|]. cbn [map basis_mults forallb]. rewrite IH. destruct (length (snd q) mod sym_dim S (fst q) =? 0); cbn [andb]; [|reflexivity].
    destruct (forallb _ g); reflexivity.
  Qed.
  Lemma from_basis_eq : from_basis S l =
    if s_drop S && forallb (fun q => length (snd q) mod sym_dim S (fst q) =? 0) G
    then Some (ES (map fst G) (map (fun q => length (snd q) / sym_dim S (fst q)) G) false (Some perm)) else None.
  Proof.
    unfold from_basis. destruct (s_drop S); [|reflexivity]. cbn [negb andb]. cbv zeta. fold perm srt diffs. rewrite fb_occ, fb_sectors, basis_mults_some.
    destruct (forallb _ G); reflexivity.
  Qed.
  Lemma from_basis_none : from_basis S l = None <-> s_drop S = false \/ exists s, In s l /\ count_in s l mod sym_dim S s <> 0.
  Proof.
    rewrite from_basis_eq. destruct (s_drop S); cbn [andb]; [|split; [left; reflexivity | reflexivity]].
    destruct (forallb _ G) eqn:F.
    - split; [discriminate|]. intros [H|(s & Hs & H)]; [discriminate|]. exfalso. apply H. apply fb_keys in Hs. apply in_map_iff in Hs as (g & <- & Hg).
      rewrite forallb_forall in F. specialize (F g Hg). apply Nat.eqb_eq in F. rewrite <- fb_count by exact Hg. exact F.
    - split; [intros _; right | reflexivity].
      assert (X : exists g, In g G /\ length (snd g) mod sym_dim S (fst g) =? 0 = false).
      { revert F. generalize G. induction G0 as [|g t IH]; cbn; [discriminate|]. intros F. apply andb_false_iff in F as [F|F]; [exists g; auto | destruct (IH F) as (g' & A & B); exists g'; auto]. }
      destruct X as (g & Hg & X). exists (fst g). split; [apply fb_keys, in_map; exact Hg|]. rewrite <- fb_count by exact Hg. apply Nat.eqb_neq. exact X.
  Qed.
  Lemma from_basis_some E : from_basis S l = Some E -> es_ok S E /\ es_dual E = false /\ sectors_of_basis S E = l /\ (forall s, es_mult S E s * sym_dim S s = count_in s l).
  Proof.
    rewrite from_basis_eq. destruct (s_drop S) eqn:HD; [|discriminate]. cbn [andb]. destruct (forallb _ G) eqn:F; [|discriminate]. intros HE. injection HE as <-.
    set (E := ES _ _ _ _).
    assert (DIV : forall g, In g G -> sym_dim S (fst g) * (length (snd g) / sym_dim S (fst g)) = length (snd g) /\ 0 < sym_dim S (fst g) /\ 0 < length (snd g)).
    { intros g Hg. rewrite forallb_forall in F. specialize (F g Hg). apply Nat.eqb_eq in F.
      assert (0 < sym_dim S (fst g)) by (apply (so_dim_pos SO), HV, fb_keys, in_map; exact Hg).
      split; [symmetry; apply Nat.div_exact; [lia | exact F]|]. split; [assumption|].
      pose proof (groups_nonempty row_eqb (combine srt srt)) as NE. rewrite Forall_forall in NE. specialize (NE g Hg). destruct (snd g); [congruence | cbn; lia]. }
    assert (ST : map fst (states S (es_decomp S E) (es_mults E)) = srt).
    { rewrite states_labels, flat_map_map_out. cbn [E es_mults es_decomp es_space es_dual es_def sp_secs]. rewrite fb_srt.
      assert (CC : combine (map fst G) (map (fun q => length (snd q) / sym_dim S (fst q)) G) = map (fun q => (fst q, length (snd q) / sym_dim S (fst q))) G).
      { generalize G. induction G0; cbn; congruence. }
      unfold es_decomp. cbn [es_space es_dual es_def sp_secs]. rewrite CC, flat_map_map'. apply flat_map_ext_in. intros g Hg. rewrite map_fst_labels. unfold nstate. cbn [fst snd]. rewrite (proj1 (DIV g Hg)). reflexivity. }
    assert (DIM : es_dim S E = length l).
    { rewrite es_dim_states by (cbn; rewrite !map_length; reflexivity). rewrite <- (map_length fst), ST. apply (Permutation_length fb_Perm). }
    assert (OK : es_ok S E).
    { constructor; cbn [E es_def es_mults es_perm].
      - intros s Hs. apply HV, fb_keys, Hs.
      - apply fb_keys_sorted.
      - rewrite !map_length. reflexivity.
      - intros m Hm. apply in_map_iff in Hm as (g & <- & Hg). destruct (DIV g Hg) as (A & B & C). destruct (length (snd g) / sym_dim S (fst g)); lia.
      - intros p Ep. injection Ep as <-. split; [exact HD|]. fold E. rewrite DIM. apply lexsort_perm. }
    split; [exact OK|]. split; [reflexivity|]. split.
    - rewrite (sectors_of_basis_public OK). pose proof (arranged_map fst (ok_public OK)) as A. rewrite ST in A.
      apply (arranged_unique A). unfold basis_perm. cbn [E es_perm]. assert (Lp := is_perm_length (lexsort_perm l)). fold perm in Lp.
      split; [unfold srt; rewrite take_length, Lp; apply lexsort_perm|]. split; [unfold srt; rewrite take_length; congruence|].
      intros k d Hk. unfold srt, take in *. rewrite map_length in Hk. rewrite nth_map_lt with (d := 0) by exact Hk. apply nth_indep. apply (is_perm_nth_lt (lexsort_perm l)). fold perm. lia.
    - intros s. unfold es_mult, es_decomp. cbn [E es_space es_def es_dual es_mults sp_secs].
      destruct (in_dec (list_eq_dec Z.eq_dec) s l) as [Hs|Hs].
      + apply fb_keys in Hs. apply in_map_iff in Hs as (g & <- & Hg). rewrite <- fb_count by exact Hg.
        replace (mult_of _ _ _) with (length (snd g) / sym_dim S (fst g)); [rewrite Nat.mul_comm; apply (DIV g Hg)|].
        unfold mult_of. assert (ND := strictly_sorted_NoDup fb_keys_sorted). revert ND Hg. generalize G. clear. intros G. induction G as [|x t IH]; intros ND Hg; [destruct Hg|].
        cbn [map combine filter fst snd]. inversion ND as [|? ? N1 N2]; subst. destruct Hg as [ -> |Hg].
        * rewrite row_eqb_refl. cbn [map nsum fold_right snd]. assert (Z0 : forall t, ~ In (fst g) (map fst t) -> filter (fun p : sector * nat => row_eqb (fst p) (fst g)) (combine (map fst t) (map (fun q : sector * list sector => length (snd q) / sym_dim S (fst q)) t)) = []).
          { clear. induction t as [|x t IH]; intros N; [reflexivity|]. cbn in *. destruct (row_eqb (fst x) (fst g)) eqn:EK; [apply row_eqb_eq in EK; tauto | apply IH; tauto]. }
          rewrite Z0 by exact N1. cbn. lia.
        * destruct (row_eqb (fst x) (fst g)) eqn:EK; [apply row_eqb_eq in EK; exfalso; apply N1; rewrite EK; apply in_map; exact Hg|]. apply (IH N2 Hg).
      + replace (count_in s l) with 0; [replace (mult_of _ _ _) with 0; [reflexivity|]|].
        * unfold mult_of. rewrite filter_none; [reflexivity|]. intros [k m] Hk. cbn. destruct (row_eqb k s) eqn:EK; [|reflexivity]. apply row_eqb_eq in EK. subst. apply in_combine_l in Hk. apply fb_keys in Hk. contradiction.
        * unfold count_in. rewrite filter_none; [reflexivity|]. intros k Hk. destruct (row_eqb k s) eqn:EK; [|reflexivity]. apply row_eqb_eq in EK. subst. contradiction.
  Qed.
End FromBasis.
