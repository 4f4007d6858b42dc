(** The complex numbers satisfy the laws used by the unitarity arguments. *)
From Coq Require Import Reals Lra List.
From Verif Require Import Util RowModel SymModel CatSpec Cplx Tower Sums StarMat.
Import ListNotations.

Lemma Cops_star : star_laws Cops.
Proof.
  assert (NN : forall l : list C, 0 <= fst (osum Cops (map (fun x => omul Cops x (oconj Cops x)) l)) /\
     (fst (osum Cops (map (fun x => omul Cops x (oconj Cops x)) l)) = 0 -> forall x, In x l -> x = C0)).
  { induction l as [|x l [IH1 IH2]].
    - split; [cbn; lra|]. intros _ x [].
    - cbn [map osum fold_right]. destruct x as [a b]. set (s := osum Cops (map (fun x => omul Cops x (oconj Cops x)) l)) in *.
      change (fold_right (oadd Cops) (o0 Cops) (map (fun x => omul Cops x (oconj Cops x)) l)) with s.
      cbn [Cops omul oconj oadd Cmul Cconj Cadd fst snd]. assert (0 <= a * a) by apply Rle_0_sqr. assert (0 <= b * b) by apply Rle_0_sqr. split; [lra|].
      intros Q y [Hy|Hy].
      + subst y. assert (a * a = 0) by lra. assert (b * b = 0) by lra. assert (a = 0) by (apply Rsqr_0_uniq; assumption). assert (b = 0) by (apply Rsqr_0_uniq; assumption). subst. reflexivity.
      + apply IH2; [lra|exact Hy]. }
  constructor.
  - exact C_ring.
  - exact Cconj_add.
  - exact Cconj_mul.
  - exact Cconj_invol.
  - intros l H. apply (proj2 (NN l)). change (o0 Cops) with C0 in H. now rewrite H.
Qed.
