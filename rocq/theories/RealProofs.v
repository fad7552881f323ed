(** The oracle of Real.v answers as the program does. *)
From Verif Require Import Base Cost Load Tree Search Score ScoreSpec ScoreProofs TreeEq Real RealSpec.
From Coq Require Import QArith.
Open Scope Z_scope.

Lemma real_score_is T vs : Forall (fun v => 0 < v) vs -> score_is T vs (real_score T vs).
Proof.
  intros P. unfold real_score. destruct (c46_value_lemma T vs (MkScorer 0 []) P (empty_right T)) as (q & st & E & _ & m & bests & M & F & Q).
  rewrite E. exists m, bests. split; [exact M|]. split; [exact F|]. rewrite Qred_correct. exact Q.
Qed.
Lemma real_realistic p stop pick : realistic p (real_oracle p stop pick).
Proof. split; [intros k h t u; reflexivity|]. intros k vs P. apply real_score_is, P. Qed.
