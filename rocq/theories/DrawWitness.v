(** Concrete drawings. *)
From Verif Require Import Base BaseLemmas Cost Utils Fractions FractionsSpec FractionsProofs Load LoadSpec LoadProofs Tree TreeSpec HeapLemmas Search SearchSpec RealSpec SearchWitness Expand
  Conclude ConcludeSpec ConcludeProofs SaveProofs ConcludeWitness Draw DrawSpec DrawProofs.
From Coq Require Import QArith Qcanon.
Open Scope Z_scope.

(** "12 to 6 6" *)
Definition p_12 : problem := problem_of [49; 50; 32; 116; 111; 32; 54; 32; 54].
Lemma p_12_loaded : loaded p_12.
Proof. apply loads_loaded. vm_compute. reflexivity. Qed.
Definition s_12 : state := snd (solve (real p_12) 3 p_12).
Definition f_12 (k : nat) : saved := hd (MkSaved 0 false [] []) (fst (conclude (10 + k) (fun _ => true) p_12 s_12)).
(** ids that end in the same three digits *)
Definition same_end (n : nat) : Z := 4096 * Z.of_nat n.

Lemma saved_12 k : length (fst (conclude (10 + k) (fun _ => true) p_12 s_12)) = 2%nat.
Proof. vm_compute. reflexivity. Qed.
Lemma drawn_12 k : match draw (10 + k) same_end (p_unit_flow_ratio p_12) (sv_heap (f_12 k)) (sv_roots (f_12 k)) with Ok (_, g) => length (g_nodes g) = 2%nat | Err _ => False end.
Proof. vm_compute. reflexivity. Qed.
Lemma roots_12 k : sv_roots (f_12 k) = [0%nat].
Proof. vm_compute. reflexivity. Qed.
Lemma children_12 k : map (@n_children Qc) (sv_heap (f_12 k)) = [[2; 3]; [2; 3]; []; []]%nat.
Proof. vm_compute. reflexivity. Qed.
Lemma levels_12 k : map (@n_level Qc) (sv_heap (f_12 k)) = [Some 0; None; Some 1; Some 1].
Proof. vm_compute. reflexivity. Qed.
Lemma ids_12 k : map (@n_id Qc) (sv_heap (f_12 k)) = [0; 1; 2; 3]%nat.
Proof. vm_compute. reflexivity. Qed.
Lemma get_map {A} (F : node Qc -> A) (h : heap Qc) l a d : map F h = l -> (a < length l)%nat -> F (get h a) = nth a l d.
Proof. intros <- B. rewrite map_length in B. unfold get. rewrite (nth_indep _ d (F (dead_node (V:=Qc)))) by (rewrite map_length; exact B). rewrite map_nth. reflexivity. Qed.
Lemma fed_12 k : let h := sv_heap (f_12 k) in let roots := sv_roots (f_12 k) in fed h roots 0 /\ fed h roots 2 /\ fed h roots 3.
Proof.
  cbv zeta. assert (F0 : fed (sv_heap (f_12 k)) (sv_roots (f_12 k)) 0) by (apply fed_root; rewrite roots_12; left; reflexivity).
  split; [exact F0|]. split; apply (fed_next _ _ 0 _ F0); rewrite (get_map _ _ _ _ [] (children_12 k)) by (cbn; lia); cbn; auto.
Qed.
Lemma c58_refuted_lemma : ~ (forall p R fuel uid, loaded p -> realistic p R -> (forall a b, uid a = uid b -> a = b) -> exists n0, forall n f, (n0 <= n)%nat ->
  In f (fst (conclude n (fun _ => true) p (snd (solve R fuel p)))) ->
  exists h' g, draw n uid (p_unit_flow_ratio p) (sv_heap f) (sv_roots f) = Ok (h', g) /\ shows uid (p_unit_flow_ratio p) (sv_heap f) (sv_roots f) g).
Proof.
  intros H. destruct (H p_12 (real p_12) 3%nat same_end p_12_loaded (real_ok _)) as (n0 & Hn); [unfold same_end; intros; lia|]. destruct (Hn (10 + n0)%nat (f_12 n0) ltac:(lia)) as (h' & g & Eg & order & _ & All & Pn & _).
  - pose proof (saved_12 n0) as E. unfold f_12. fold s_12. destruct (fst (conclude (10 + n0) _ p_12 _)) as [|x l]; [discriminate|]. left. reflexivity.
  - pose proof (drawn_12 n0) as D. rewrite Eg in D. apply Permutation_length in Pn. rewrite map_length, D in Pn. destruct (fed_12 n0) as (F0 & F2 & F3). apply All in F0, F2, F3.
    assert (I : incl [0; 2; 3]%nat order) by (intros x [<-|[<-|[<-|[]]]]; assumption). apply NoDup_incl_length in I; [cbn in I; lia|]. repeat constructor; cbn; lia.
Qed.

(** with ids that end differently *)
Definition own_end (n : nat) : Z := Z.of_nat n.
Lemma c58_example : let h := sv_heap (f_12 0) in let roots := sv_roots (f_12 0) in
  (forall a, fed h roots a -> (a < length h)%nat) /\ readable own_end h roots /\
  (forall r, In r roots -> n_level (get h r) = Some 0) /\ (forall a, fed h roots a -> n_level (get h a) <> None) /\ fed h roots 3.
Proof.
  cbv zeta. pose proof (fed_12 0) as F12. cbv zeta in F12. destruct F12 as (_ & _ & F3).
  pose proof (roots_12 0) as R. pose proof (children_12 0) as C. pose proof (levels_12 0) as L. pose proof (ids_12 0) as I. set (f := f_12 0) in *. clearbody f.
  assert (X : forall a, fed (sv_heap f) (sv_roots f) a -> In a [0; 2; 3]%nat).
  { induction 1 as [r J|a b _ IH J]; [rewrite R in J; destruct J as [<-|[]]; left; reflexivity|].
    rewrite (get_map _ _ _ _ [] C) in J by (cbn; destruct IH as [<-|[<-|[<-|[]]]]; lia). destruct IH as [<-|[<-|[<-|[]]]]; cbn in J; [|destruct J|destruct J]. destruct J as [<-|[<-|[]]]; cbn; auto. }
  assert (B : forall a, In a [0; 2; 3]%nat -> (a < 4)%nat) by (intros a [<-|[<-|[<-|[]]]]; lia).
  split; [intros a F; apply X, B in F; apply (f_equal (@length _)) in I; rewrite map_length in I; cbn in I; lia|]. split.
  - intros a b Fa Fb E. apply X in Fa, Fb.
    assert (U : forall c, In c [0; 2; 3]%nat -> snd (fst (fst (str_node own_end (sv_heap f) c))) = Z.of_nat c).
    { intros c J. unfold str_node. cbn [fst snd]. rewrite (get_map _ _ _ _ O I) by (apply B, J). destruct J as [<-|[<-|[<-|[]]]]; reflexivity. }
    apply (f_equal (fun k => snd (fst (fst k)))) in E. rewrite (U a Fa), (U b Fb) in E. lia.
  - split; [intros r J; rewrite R in J; destruct J as [<-|[]]; rewrite (get_map _ _ _ _ None L) by (cbn; lia); reflexivity|]. split; [|exact F3].
    intros a F. apply X in F. rewrite (get_map _ _ _ _ None L) by (apply B, F). destruct F as [<-|[<-|[<-|[]]]]; discriminate.
Qed.
