(** Merge walks, sorted data, stored blocks. *)
From Verif Require Import Util StableSort RowModel RowProofs GridModel GridProofs SymModel SymProofs CatSpec Sums SpaceModel SpaceSpec SpaceProofs SpaceProofs7
  PipeModel TreeModel TensorModel TensorSpec TensorProofs5 BlockModel BlockProofs SparseModel SparseProofs SparseProofs3 ConvertModel ConvertSpec ConvertProofs3 FtOpsModel FtOpsSpec.
Set Implicit Arguments. Unset Strict Implicit.
Open Scope nat_scope.

Section Walk.
  Variables (X Y : Type) (ka : X -> nat) (kb : Y -> nat) (dx : X) (dy : Y).
  Definition wpairs (pa a : list X) (pb b : list Y) : list (X * Y) :=
    map (fun ij => (nth (fst ij) (pa ++ a) dx, nth (snd ij) (pb ++ b) dy)) (walk_1d (length pa) (map ka a) (length pb) (map kb b)).
  Lemma sorted_cons_lt (l : list nat) x y : StronglySorted lt (x :: l) -> In y l -> x < y.
  Proof. intros H. apply StronglySorted_inv in H. destruct H as [_ H]. rewrite Forall_forall in H. auto. Qed.
  Lemma nth_mid (Z : Type) (p l : list Z) z d : nth (length p) (p ++ z :: l) d = z.
  Proof. rewrite app_nth2, Nat.sub_diag by lia. reflexivity. Qed.
  Lemma wpairs_spec a : forall pa b pb, StronglySorted lt (map ka a) -> StronglySorted lt (map kb b) ->
    (forall x y, In (x, y) (wpairs pa a pb b) <-> In x a /\ In y b /\ ka x = kb y) /\ StronglySorted lt (map (fun p => ka (fst p)) (wpairs pa a pb b)).
  Proof.
    assert (MV1 : forall (pa a : list X) x, pa ++ x :: a = (pa ++ [x]) ++ a) by (intros; now rewrite <- app_assoc).
    assert (MV2 : forall (pb b : list Y) y, pb ++ y :: b = (pb ++ [y]) ++ b) by (intros; now rewrite <- app_assoc).
    assert (ML1 : forall (pa : list X) x, Datatypes.S (length pa) = length (pa ++ [x])) by (intros; rewrite app_length; cbn; lia).
    assert (ML2 : forall (pb : list Y) y, Datatypes.S (length pb) = length (pb ++ [y])) by (intros; rewrite app_length; cbn; lia).
    induction a as [|x a IHa]; intros pa b pb Sa Sb.
    { split; [|constructor]. intros u v. split; [intros []|]. intros [[] _]. }
    revert pb Sb. induction b as [|y b IHb]; intros pb Sb.
    { unfold wpairs. cbn [map walk_1d]. split; [|constructor]. intros u v. split; [intros []|]. intros [_ [[] _]]. }
    assert (Sa' := Sa). assert (Sb' := Sb). cbn [map] in Sa', Sb'. apply StronglySorted_inv in Sa', Sb'. destruct Sa' as [Sa' _], Sb' as [Sb' _].
    assert (LX : forall u, In u a -> ka x < ka u) by (intros u I; apply (sorted_cons_lt Sa); now apply in_map).
    assert (LY : forall v, In v b -> kb y < kb v) by (intros v I; apply (sorted_cons_lt Sb); now apply in_map).
    unfold wpairs. change (walk_1d (length pa) (map ka (x :: a)) (length pb) (map kb (y :: b))) with
      (if ka x <? kb y then walk_1d (S (length pa)) (map ka a) (length pb) (map kb (y :: b))
       else if kb y <? ka x then walk_1d (length pa) (map ka (x :: a)) (S (length pb)) (map kb b)
       else (length pa, length pb) :: walk_1d (S (length pa)) (map ka a) (S (length pb)) (map kb b)).
    destruct (Nat.ltb_spec (ka x) (kb y)) as [C1|C1].
    - rewrite (MV1 pa a x), (ML1 pa x). destruct (IHa (pa ++ [x]) (y :: b) pb Sa' Sb) as [H1 H2]. split; [|exact H2]. intros u v. etransitivity; [apply H1|].
      split; [intros (A1 & A2 & A3); split; [now right|now split]|]. intros ([<-|A1] & A2 & A3); [exfalso|now split]. destruct A2 as [<-|A2]; [lia|specialize (LY v A2); lia].
    - destruct (Nat.ltb_spec (kb y) (ka x)) as [C2|C2].
      + rewrite (MV2 pb b y), (ML2 pb y). destruct (IHb (pb ++ [y]) Sb') as [H1 H2]. split; [|exact H2]. intros u v. etransitivity; [apply H1|].
        split; [intros (A1 & A2 & A3); split; [easy|]; split; [now right|easy]|]. intros (A1 & [<-|A2] & A3); [exfalso|now split]. destruct A1 as [<-|A1]; [lia|specialize (LX u A1); lia].
      + assert (E : ka x = kb y) by lia. cbn [map fst snd]. rewrite (nth_mid pa a x dx), (nth_mid pb b y dy). rewrite (MV1 pa a x), (ML1 pa x), (MV2 pb b y), (ML2 pb y).
        destruct (IHa (pa ++ [x]) b (pb ++ [y]) Sa' Sb') as [H1 H2]. fold (wpairs (pa ++ [x]) a (pb ++ [y]) b). fold (wpairs (pa ++ [x]) a (pb ++ [y]) b) in H1, H2. split.
        * intros u v. cbn [In]. rewrite H1. split.
          -- intros [[= <- <-]|(A1 & A2 & A3)]; [now split; [left|split; [left|]]|]. split; [now right|]. split; [now right|exact A3].
          -- intros ([<-|A1] & [<-|A2] & A3); [now left| | |now right]; exfalso; [specialize (LY v A2); lia|specialize (LX u A1); lia].
        * constructor; [exact H2|]. apply Forall_forall. intros k I. apply in_map_iff in I. destruct I as [[u v] [<- I]]. apply H1 in I. cbn [fst]. apply LX. tauto.
  Qed.
  Definition bpairs (pa a : list X) (pb b : list Y) : list (option X * option Y) :=
    map (fun ij => (option_map (fun i => nth i (pa ++ a) dx) (fst ij), option_map (fun j => nth j (pb ++ b) dy) (snd ij))) (walk_both_1d (length pa) (map ka a) (length pb) (map kb b)).
  Definition bkey (p : option X * option Y) : nat := match p with (Some x, _) => ka x | (None, Some y) => kb y | _ => 0 end.
  Definition bspec (a : list X) (b : list Y) (L : list (option X * option Y)) : Prop :=
    (forall p, In p L <-> match p with
      | (Some x, Some y) => In x a /\ In y b /\ ka x = kb y
      | (Some x, None) => In x a /\ ~ In (ka x) (map kb b)
      | (None, Some y) => In y b /\ ~ In (kb y) (map ka a)
      | (None, None) => False end) /\ StronglySorted lt (map bkey L).
  Lemma map_seq_nth (Z W : Type) (g : Z -> W) (p l : list Z) d : map (fun k => g (nth k (p ++ l) d)) (seq (length p) (length l)) = map g l.
  Proof.
    revert p. induction l as [|z l IH]; intros p; [reflexivity|]. cbn [length seq map]. rewrite nth_mid. f_equal. replace (p ++ z :: l) with ((p ++ [z]) ++ l) by now rewrite <- app_assoc.
    replace (S (length p)) with (length (p ++ [z])) by (rewrite app_length; cbn; lia). apply IH.
  Qed.
  Lemma bpairs_spec a : forall pa b pb, StronglySorted lt (map ka a) -> StronglySorted lt (map kb b) -> bspec a b (bpairs pa a pb b).
  Proof.
    assert (MV1 : forall (pa a : list X) x, pa ++ x :: a = (pa ++ [x]) ++ a) by (intros; now rewrite <- app_assoc).
    assert (MV2 : forall (pb b : list Y) y, pb ++ y :: b = (pb ++ [y]) ++ b) by (intros; now rewrite <- app_assoc).
    assert (ML1 : forall (pa : list X) x, Datatypes.S (length pa) = length (pa ++ [x])) by (intros; rewrite app_length; cbn; lia).
    assert (ML2 : forall (pb : list Y) y, Datatypes.S (length pb) = length (pb ++ [y])) by (intros; rewrite app_length; cbn; lia).
    induction a as [|x a IHa]; intros pa b pb Sa Sb.
    { unfold bpairs. cbn [map walk_both_1d]. rewrite map_map, map_length. cbn [fst snd option_map]. rewrite (map_seq_nth (fun y => (@None X, Some y)) pb b dy). split.
      - intros [[u|] [v|]]; split.
        + intros I. apply in_map_iff in I. destruct I as [y [[=] _]].
        + intros [[] _].
        + intros I. apply in_map_iff in I. destruct I as [y [[=] _]].
        + intros [[] _].
        + intros I. apply in_map_iff in I. destruct I as [y [[= <-] I]]. split; [exact I|intros []].
        + intros [I _]. apply in_map_iff. now exists v.
        + intros I. apply in_map_iff in I. destruct I as [y [[=] _]].
        + intros [].
      - rewrite map_map. cbn [bkey]. exact Sb. }
    revert pb Sb. induction b as [|y b IHb]; intros pb Sb.
    { unfold bpairs. change (walk_both_1d (length pa) (map ka (x :: a)) (length pb) (map kb [])) with (map (fun k => (Some k, @None nat)) (seq (length pa) (length (map ka (x :: a))))).
      rewrite map_map, map_length. cbn [fst snd option_map]. rewrite (map_seq_nth (fun y => (Some y, @None Y)) pa (x :: a) dx). split.
      - intros [[u|] [v|]]; split.
        + intros I. apply in_map_iff in I. destruct I as [y [[=] _]].
        + intros [_ [[] _]].
        + intros I. apply in_map_iff in I. destruct I as [y [[= <-] I]]. split; [exact I|intros []].
        + intros [I _]. apply in_map_iff. now exists u.
        + intros I. apply in_map_iff in I. destruct I as [y [[=] _]].
        + intros [[] _].
        + intros I. apply in_map_iff in I. destruct I as [y [[=] _]].
        + intros [].
      - rewrite map_map. cbn [bkey]. exact Sa. }
    assert (Sa' := Sa). assert (Sb' := Sb). cbn [map] in Sa', Sb'. apply StronglySorted_inv in Sa', Sb'. destruct Sa' as [Sa' _], Sb' as [Sb' _].
    assert (LX : forall k, In k (map ka a) -> ka x < k) by (intros u I; now apply (sorted_cons_lt Sa)).
    assert (LY : forall k, In k (map kb b) -> kb y < k) by (intros v I; now apply (sorted_cons_lt Sb)).
    unfold bpairs. change (walk_both_1d (length pa) (map ka (x :: a)) (length pb) (map kb (y :: b))) with
      (if ka x <? kb y then (Some (length pa), None) :: walk_both_1d (S (length pa)) (map ka a) (length pb) (map kb (y :: b))
       else if kb y <? ka x then (None, Some (length pb)) :: walk_both_1d (length pa) (map ka (x :: a)) (S (length pb)) (map kb b)
       else (Some (length pa), Some (length pb)) :: walk_both_1d (S (length pa)) (map ka a) (S (length pb)) (map kb b)).
    destruct (Nat.ltb_spec (ka x) (kb y)) as [C1|C1].
    - cbn [map fst snd option_map]. rewrite (nth_mid pa a x dx), (MV1 pa a x), (ML1 pa x). destruct (IHa (pa ++ [x]) (y :: b) pb Sa' Sb) as [H1 H2].
      unfold bpairs in H1, H2. cbn [map] in H1, H2. match type of H2 with StronglySorted lt (map bkey ?l) => set (L := l) in * end.
      assert (NX : ~ In (ka x) (map kb (y :: b))) by (intros [I|I]; [lia|specialize (LY _ I); lia]).
      split.
      + intros p. cbn [In]. rewrite (H1 p). destruct p as [[u|] [v|]].
        * split; [intros [[=]|(A1 & A2 & A3)]; split; [now right|now split]|]. intros ([<-|A1] & A2 & A3); [|now right]. exfalso. apply NX. rewrite A3. now apply (in_map kb (y :: b)).
        * split; [intros [[= <-]|[A1 A2]]; [split; [now left|exact NX]|split; [now right|exact A2]]|]. intros [[<-|A1] A2]; [now left|right; now split].
        * split; [intros [[=]|[A1 A2]]; split; [exact A1|]|]. { intros [I|I]; [|now apply A2]. apply NX. rewrite I. now apply (in_map kb (y :: b)). } intros [A1 A2]. right. split; [exact A1|]. intros I. apply A2. now right.
        * split; [intros [[=]|[]]|intros []].
      + cbn [map bkey]. constructor; [exact H2|]. apply Forall_forall. intros k I. apply in_map_iff in I. destruct I as [p [<- I]]. apply H1 in I. destruct p as [[u|] [v|]]; cbn [bkey].
        * apply LX. apply in_map. tauto.
        * apply LX. apply in_map. tauto.
        * destruct I as [[<-|I] _]; [lia|]. specialize (LY (kb v) (in_map kb _ _ I)). lia.
        * destruct I.
    - destruct (Nat.ltb_spec (kb y) (ka x)) as [C2|C2].
      + cbn [map fst snd option_map]. rewrite (nth_mid pb b y dy), (MV2 pb b y), (ML2 pb y). destruct (IHb (pb ++ [y]) Sb') as [H1 H2].
        unfold bpairs in H1, H2. cbn [map] in H1, H2. match type of H2 with StronglySorted lt (map bkey ?l) => set (L := l) in * end.
        assert (NY : ~ In (kb y) (map ka (x :: a))) by (intros [I|I]; [lia|specialize (LX _ I); lia]).
        split.
        * intros p. cbn [In]. rewrite (H1 p). destruct p as [[u|] [v|]].
          -- split; [intros [[=]|(A1 & A2 & A3)]; split; [exact A1|]; split; [now right|exact A3]|]. intros (A1 & [<-|A2] & A3); [|now right]. exfalso. apply NY. rewrite <- A3. now apply (in_map ka (x :: a)).
          -- split; [intros [[=]|[A1 A2]]; split; [exact A1|]|]. { intros [I|I]; [|now apply A2]. apply NY. rewrite I. now apply (in_map ka (x :: a)). } intros [A1 A2]. right. split; [exact A1|]. intros I. apply A2. now right.
          -- split; [intros [[= <-]|[A1 A2]]; [split; [now left|exact NY]|split; [now right|exact A2]]|]. intros [[<-|A1] A2]; [now left|right; now split].
          -- split; [intros [[=]|[]]|intros []].
        * cbn [map bkey]. constructor; [exact H2|]. apply Forall_forall. intros k I. apply in_map_iff in I. destruct I as [p [<- I]]. apply H1 in I. destruct p as [[u|] [v|]]; cbn [bkey].
          -- destruct I as [[<-|I] _]; [lia|]. specialize (LX (ka u) (in_map ka _ _ I)). lia.
          -- destruct I as [[<-|I] _]; [lia|]. specialize (LX (ka u) (in_map ka _ _ I)). lia.
          -- apply LY. apply in_map. tauto.
          -- destruct I.
      + assert (E : ka x = kb y) by lia. cbn [map fst snd option_map]. rewrite (nth_mid pa a x dx), (nth_mid pb b y dy), (MV1 pa a x), (ML1 pa x), (MV2 pb b y), (ML2 pb y).
        destruct (IHa (pa ++ [x]) b (pb ++ [y]) Sa' Sb') as [H1 H2]. unfold bpairs in H1, H2. cbn [map] in H1, H2. match type of H2 with StronglySorted lt (map bkey ?l) => set (L := l) in * end.
        split.
        * intros p. cbn [In]. rewrite (H1 p). destruct p as [[u|] [v|]].
          -- split; [intros [[= <- <-]|(A1 & A2 & A3)]; [split; [now left|split; [now left|exact E]]|split; [now right|split; [now right|exact A3]]]|].
             intros ([<-|A1] & [<-|A2] & A3); [now left| | |now right]; exfalso; [specialize (LY (kb v) (in_map kb _ _ A2)); lia|specialize (LX (ka u) (in_map ka _ _ A1)); lia].
          -- split; [intros [[=]|[A1 A2]]; split; [now right|]|]. { intros [I|I]; [|now apply A2]. specialize (LX (ka u) (in_map ka _ _ A1)). lia. }
             intros [[<-|A1] A2]; [exfalso; apply A2; left; lia|]. right. split; [exact A1|]. intros I. apply A2. now right.
          -- split; [intros [[=]|[A1 A2]]; split; [now right|]|]. { intros [I|I]; [|now apply A2]. specialize (LY (kb v) (in_map kb _ _ A1)). lia. }
             intros [[<-|A1] A2]; [exfalso; apply A2; left; lia|]. right. split; [exact A1|]. intros I. apply A2. now right.
          -- split; [intros [[=]|[]]|intros []].
        * cbn [map bkey]. constructor; [exact H2|]. apply Forall_forall. intros k I. apply in_map_iff in I. destruct I as [p [<- I]]. apply H1 in I. destruct p as [[u|] [v|]]; cbn [bkey].
          -- apply LX. apply in_map. tauto.
          -- apply LX. apply in_map. tauto.
          -- rewrite E. apply LY. apply in_map. tauto.
          -- destruct I.
  Qed.
End Walk.
