(** Even sizes raise. *)
From Coq Require Import Reals List ZArith Lia.
From Verif Require Import Cx Arr Model_coupling Model_forward Model_vector Model_bowtie Proof_bowtie.
Import ListNotations.
Lemma bowtie_even : forall svd qr n u, Nat.even n = true -> (4 <= n)%nat -> bowtie svd qr n u = None.
Proof.
  intros svd qr n u He H4. unfold bowtie.
  destruct (bowtie_phases svd qr n (2 * n - 1) n u 0 (Z.of_nat n - 2) {| b_thetas := fun _ _ => 0%R; b_phis := fun _ _ => 0%R |}); [| reflexivity].
  cbn [obind]. destruct (bowtie_mesh n TOP ltac:(lia)) as (l & m & El & Em & _ & _ & _ & _ & _ & _ & _ & _ & Ec).
  rewrite El. cbn [obind]. rewrite Em. cbn [obind]. rewrite (Ec He H4). reflexivity.
Qed.
