(** A route (C35, C52): "7 to 1 2 4", 3 is taken out of 7 and 1 out of 3. *)
From Verif Require Import Base BaseLemmas Cost Utils Fractions Load LoadSpec Tree TreeSpec Search SearchSpec SearchWitness RunProofs RouteSpec.
From Coq Require Import QArith Qcanon.
Open Scope Z_scope.

Lemma p_124_values : p_sources p_124 = [7] /\ p_targets p_124 = [1; 2; 4] /\ p_gcd p_124 = 1 /\ p_initial_best_size p_124 = 6.
Proof. vm_compute. auto. Qed.
Lemma p_124_ends : fst (solve R_any 60 p_124) = Ok tt.
Proof. vm_compute. reflexivity. Qed.
Lemma p_124_route : route p_124 (p_targets p_124) [3] [[3; 4]; [7]] 6.
Proof.
  destruct p_124_values as (ES & ET & EG & _). rewrite ET.
  pose proof (route_start p_124) as R0. rewrite ES in R0.
  assert (R1 : route p_124 [3; 4] [7] [[7]] 4).
  { apply (route_step p_124 _ _ _ _ (FExtract 7 3) 4 [3; 4] [] R0); rewrite ?ET, ?ES, ?EG.
    - cbn. lia.
    - vm_compute. reflexivity.
    - reflexivity.
    - reflexivity.
    - repeat constructor; lia.
    - intros v [<-|[]]. vm_compute. lia.
    - intros v [<-|[<-|[]]]; cbn; lia.
    - right. exists 7, 1. cbn. lia.
    - intros []. }
  apply (route_step p_124 _ _ _ _ (FExtract 3 1) 2 [1; 2; 4] [4] R1); rewrite ?ET, ?ES, ?EG.
  - cbn. lia.
  - vm_compute. reflexivity.
  - reflexivity.
  - reflexivity.
  - repeat constructor; lia.
  - intros v [<-|[]]. vm_compute. lia.
  - intros v [<-|[<-|[]]]; cbn; lia.
  - right. exists 3, 1. cbn. lia.
  - intros [E|[]]. discriminate.
Qed.
