(** * The charges of the Heisenberg chain commute pairwise in every ring (C87) *)
From Coq Require Import ZArith Lia List Bool QArith Qcanon Setoid Morphisms.
From Verif Require Import ExprModel ExprSpec ExprMap ExprEval ExprStd ExprMain ExprThrow ExprInst FockSpec
  ExprOrder PropExpr PropUnique PropHS PropFactories HeisModel HeisSum HeisDen HeisLocal HeisProofs.
Import ListNotations.
Close Scope Qc_scope.
Close Scope Q_scope.
Close Scope Z_scope.
Open Scope nat_scope.
Open Scope list_scope.

(** *** commutators that vanish in every ring are printed as 0 *)
Lemma half_all (l : list (gen Z)) : half_if_spins hso l.
Proof. intros m c i _. exists cx_half. unfold cx_half. cbn. f_equal; now apply Qc_is_canon. Qed.

Definition kills (N : nat) (u v : den) : Prop :=
  forall R (ro : ring_ops R) inj rho, is_ring ro -> scalar_image hso ro inj rho ->
    relations_on (KW N) hso ro inj rho -> req ro (rcomm ro (u R ro inj rho) (v R ro inj rho)) (r0 ro).
Lemma comm_zero N u v a b : means (site_gens N) u a -> means (site_gens N) v b -> kills N u v -> comm a b = Ok [].
Proof.
  intros Ha Hb Z. unfold comm.
  destruct (m_minor (site_gens N) (site_gens_simple N) _ _ _ _ _ _ _ _ Ha Hb Hb Ha) as [e [E [Be Ee]]].
  rewrite E. f_equal.
  apply (built_unique ioZ sto_Z hso cx_domain (site_gens N) (site_gens_simple N)).
  - apply half_all.
  - exact Be.
  - exact (proj1 (m_zero (site_gens N))).
  - intros R ro inj rho Hr SI RL. pose proof (ri_equiv _ Hr) as EQ.
    rewrite (Ee R ro inj rho Hr SI RL). exact (Z R ro inj rho Hr SI RL).
Qed.

(** *** values of the local operators at site i *)
Definition local_at (N : nat) (P : (Z -> vden) -> den) (e : expr_t) : Prop :=
  forall R (ro : ring_ops R) inj rho, is_ring ro -> scalar_image hso ro inj rho ->
    relations_on (KW N) hso ro inj rho -> forall i,
    req ro (ev ro inj rho N i e) (P (at_site N i) R ro inj rho).
Definition natural (P : (Z -> vden) -> den) : Prop :=
  forall N i R (ro : ring_ops R) inj rho,
    P dspin R ro inj (rhoi rho N i) = P (at_site N i) R ro inj rho.
Definition natural_mod (P : (Z -> vden) -> den) : Prop :=
  forall N i R (ro : ring_ops R) inj rho,
    P (fun k => dspin (k mod Z.of_nat N)) R ro inj (rhoi rho N i) = P (at_site N i) R ro inj rho.
Lemma local_long N W P e : 1 <= N -> W <= N -> natural P -> means (site_gens W) (P dspin) e -> local_at N P e.
Proof.
  intros HN hW HP [_ E] R ro inj rho Hr SI RL i. unfold ev. rewrite <- HP.
  apply E; [exact Hr|apply (SIi ro inj rho SI)|apply (RLi ro inj rho N HN RL); exact hW].
Qed.
Lemma local_short N P e : 1 <= N -> natural_mod P ->
  means (site_gens N) (P (fun k => dspin (k mod Z.of_nat N))) e -> local_at N P e.
Proof.
  intros HN HP [_ E] R ro inj rho Hr SI RL i. unfold ev. rewrite <- HP.
  apply E; [exact Hr|apply (SIi ro inj rho SI)|apply (RLi ro inj rho N HN RL); lia].
Qed.
Lemma nat_all : natural Ph /\ natural P3 /\ natural P4 /\ natural P5 /\
  natural (fun p => d0 (p 0%Z)) /\ natural (fun p => d1 (p 0%Z)) /\ natural (fun p => d2 (p 0%Z)).
Proof. repeat (split; [intros N i R ro inj rho; reflexivity|]). intros N i R ro inj rho; reflexivity. Qed.
Lemma nat_mod_all : natural_mod Ph /\ natural_mod P3 /\ natural_mod P4 /\ natural_mod P5 /\
  natural_mod (fun p => d0 (p 0%Z)) /\ natural_mod (fun p => d1 (p 0%Z)) /\ natural_mod (fun p => d2 (p 0%Z)).
Proof.
  assert (E : forall N i k, wsite N i (k mod Z.of_nat N) = wsite N i k)
    by (intros N i k; unfold wsite; apply Zplus_mod_idemp_r).
  repeat match goal with |- _ /\ _ => split end; intros N i R ro inj rho;
    cbv [Ph P3 P4 P5 ddot dcross dminor dsub dadd dopp dmul dinj dgen dspin d0 d1 d2 at_site rhoi];
    rewrite ?E; reflexivity.
Qed.

(** *** sums of translates *)
Lemma sums_commute N PA PB a b : local_at N PA a -> local_at N PB b ->
  (forall R (ro : ring_ops R) inj rho, is_ring ro -> scalar_image hso ro inj rho ->
    relations_on (KW N) hso ro inj rho ->
    req ro (rcomm ro (csum ro N (fun i => ev ro inj rho N i a)) (csum ro N (fun i => ev ro inj rho N i b))) (r0 ro)) ->
  kills N (dsum (fun i => PA (at_site N i)) N) (dsum (fun i => PB (at_site N i)) N).
Proof.
  intros La Lb H R ro inj rho Hr SI RL. pose proof (ri_equiv _ Hr) as EQ.
  rewrite <- (H R ro inj rho Hr SI RL). apply (rcomm_ext ro Hr); unfold dsum, csum; apply (zsum_ext ro Hr); intros i _; symmetry.
  - apply (La R ro inj rho Hr SI RL).
  - apply (Lb R ro inj rho Hr SI RL).
Qed.
Definition pm (N : nat) (k : Z) : vec := sv (Z.modulo k (Z.of_nat N)).
Lemma kills_long N A Bn PA PB a b : 1 <= N -> A + Bn - 1 <= N -> 1 <= A -> 1 <= Bn -> natural PA -> natural PB ->
  means (site_gens A) (PA dspin) a -> means (site_gens Bn) (PB dspin) b -> check a b A Bn = true ->
  kills N (dsum (fun i => PA (at_site N i)) N) (dsum (fun i => PB (at_site N i)) N).
Proof.
  intros HN hW hA hB NA NB Ma Mb C.
  apply (sums_commute N PA PB a b).
  - apply (local_long N A); auto. lia.
  - apply (local_long N Bn); auto. lia.
  - intros R ro inj rho Hr SI RL. exact (check_commute ro Hr inj rho SI N HN RL a b A Bn C hW).
Qed.
Lemma kills_short N PA PB a b : 1 <= N -> natural_mod PA -> natural_mod PB ->
  means (site_gens N) (PA (fun k => dspin (k mod Z.of_nat N))) a ->
  means (site_gens N) (PB (fun k => dspin (k mod Z.of_nat N))) b -> check_cyc N a b = true ->
  kills N (dsum (fun i => PA (at_site N i)) N) (dsum (fun i => PB (at_site N i)) N).
Proof.
  intros HN NA NB Ma Mb C. apply (sums_commute N PA PB a b).
  - apply (local_short N); auto.
  - apply (local_short N); auto.
  - intros R ro inj rho Hr SI RL. exact (check_cyc_commute ro Hr inj rho SI N HN RL a b C).
Qed.
Lemma pm_ok N : 1 <= N -> forall k, (0 <= k < 5)%Z -> vmeans (site_gens N) (dspin (k mod Z.of_nat N)) (pm N k).
Proof. intros HN k _. apply sv_ok. apply Z.mod_pos_bound. lia. Qed.
Lemma sv_ok' W : forall k, (0 <= k < Z.of_nat W)%Z -> vmeans (site_gens W) (dspin k) (sv k).
Proof. intros k h. apply sv_ok. exact h. Qed.

(** short chains of M = 1, 2, ... spins *)
Lemma short_pair (PA PB : (Z -> vden) -> den) (fa fb : (Z -> vec) -> expr_t) M : natural_mod PA -> natural_mod PB ->
  (forall W u p, (forall k, (0 <= k < 5)%Z -> vmeans (site_gens W) (u k) (p k)) -> means (site_gens W) (PA u) (fa p)) ->
  (forall W u p, (forall k, (0 <= k < 5)%Z -> vmeans (site_gens W) (u k) (p k)) -> means (site_gens W) (PB u) (fb p)) ->
  1 <= M -> check_cyc M (fa (pm M)) (fb (pm M)) = true ->
  kills M (dsum (fun i => PA (at_site M i)) M) (dsum (fun i => PB (at_site M i)) M).
Proof.
  intros NA NB Ma Mb h C. apply (kills_short M PA PB (fa (pm M)) (fb (pm M))); auto.
  - apply Ma. apply pm_ok. exact h.
  - apply Mb. apply pm_ok. exact h.
Qed.
Lemma fh_ok : forall W u p, (forall k, (0 <= k < 5)%Z -> vmeans (site_gens W) (u k) (p k)) -> means (site_gens W) (Ph u) (h_of p).
Proof. intros W u p H. apply (h_of_ok W u p 5 H). lia. Qed.
Lemma f3_ok : forall W u p, (forall k, (0 <= k < 5)%Z -> vmeans (site_gens W) (u k) (p k)) -> means (site_gens W) (P3 u) (q3_of p).
Proof. intros W u p H. apply (q3_of_ok W u p 5 H). lia. Qed.
Lemma f4_ok : forall W u p, (forall k, (0 <= k < 5)%Z -> vmeans (site_gens W) (u k) (p k)) -> means (site_gens W) (P4 u) (q4_of p).
Proof. intros W u p H. apply (q4_of_ok W u p 5 H). lia. Qed.
Lemma f5_ok : forall W u p, (forall k, (0 <= k < 5)%Z -> vmeans (site_gens W) (u k) (p k)) -> means (site_gens W) (P5 u) (q5_of p).
Proof. intros W u p H. apply (q5_of_ok W u p 5 H). lia. Qed.

Section Pairs.
Context (N : nat) (HN : 1 <= N).
Notation S_of P := (dsum (fun i => P (at_site N i)) N).
Ltac nm := destruct nat_mod_all as [? [? [? [? [? [? ?]]]]]]; assumption.
Ltac nl := destruct nat_all as [? [? [? [? [? [? ?]]]]]]; assumption.

Lemma k_h_s0 : kills N (S_of Ph) (S_of (fun p => d0 (p 0%Z))).
Proof.
  destruct (Nat.eq_dec N 1) as [->|ne].
  - apply (kills_short 1 Ph (fun p => d0 (p 0%Z)) (h_of (pm 1)) (v0 (pm 1 0))); [lia|nm|nm| | |vm_compute; reflexivity].
    + apply (h_of_ok 1 (fun k => dspin (k mod Z.of_nat 1)) (pm 1) 5 (pm_ok 1 HN)). lia.
    + apply (pm_ok 1 HN 0%Z). lia.
  - apply (kills_long N 2 1 Ph (fun p => d0 (p 0%Z)) (h_of sv) (v0 (sv 0))); [lia|lia|lia|lia|nl|nl| | |vm_compute; reflexivity].
    + apply (h_of_ok 2 dspin sv 2 (sv_ok' 2)). lia.
    + apply (sv_ok' 1 0%Z). lia.
Qed.
Lemma k_h_s1 : kills N (S_of Ph) (S_of (fun p => d1 (p 0%Z))).
Proof.
  destruct (Nat.eq_dec N 1) as [->|ne].
  - apply (kills_short 1 Ph (fun p => d1 (p 0%Z)) (h_of (pm 1)) (v1 (pm 1 0))); [lia|nm|nm| | |vm_compute; reflexivity].
    + apply (h_of_ok 1 (fun k => dspin (k mod Z.of_nat 1)) (pm 1) 5 (pm_ok 1 HN)). lia.
    + apply (pm_ok 1 HN 0%Z). lia.
  - apply (kills_long N 2 1 Ph (fun p => d1 (p 0%Z)) (h_of sv) (v1 (sv 0))); [lia|lia|lia|lia|nl|nl| | |vm_compute; reflexivity].
    + apply (h_of_ok 2 dspin sv 2 (sv_ok' 2)). lia.
    + apply (sv_ok' 1 0%Z). lia.
Qed.
Lemma k_h_s2 : kills N (S_of Ph) (S_of (fun p => d2 (p 0%Z))).
Proof.
  destruct (Nat.eq_dec N 1) as [->|ne].
  - apply (kills_short 1 Ph (fun p => d2 (p 0%Z)) (h_of (pm 1)) (v2 (pm 1 0))); [lia|nm|nm| | |vm_compute; reflexivity].
    + apply (h_of_ok 1 (fun k => dspin (k mod Z.of_nat 1)) (pm 1) 5 (pm_ok 1 HN)). lia.
    + apply (pm_ok 1 HN 0%Z). lia.
  - apply (kills_long N 2 1 Ph (fun p => d2 (p 0%Z)) (h_of sv) (v2 (sv 0))); [lia|lia|lia|lia|nl|nl| | |vm_compute; reflexivity].
    + apply (h_of_ok 2 dspin sv 2 (sv_ok' 2)). lia.
    + apply (sv_ok' 1 0%Z). lia.
Qed.

Lemma k_h_q3 : kills N (S_of Ph) (S_of P3).
Proof.
  destruct (Nat.le_gt_cases 4 N) as [h|h].
  - apply (kills_long N 2 3 Ph P3 (h_of sv) (q3_of sv)); [lia|lia|lia|lia|nl|nl| | |vm_compute; reflexivity].
    + apply (h_of_ok 2 dspin sv 2 (sv_ok' 2)). lia.
    + apply (q3_of_ok 3 dspin sv 3 (sv_ok' 3)). lia.
  - assert (C : N = 1 \/ N = 2 \/ N = 3) by lia. clear h.
    destruct C as [->|[->| ->]]; (apply (short_pair Ph P3 h_of q3_of); [nm|nm|apply fh_ok|apply f3_ok|lia|vm_compute; reflexivity]).
Qed.
Lemma k_h_q4 : kills N (S_of Ph) (S_of P4).
Proof.
  destruct (Nat.le_gt_cases 5 N) as [h|h].
  - apply (kills_long N 2 4 Ph P4 (h_of sv) (q4_of sv)); [lia|lia|lia|lia|nl|nl| | |vm_compute; reflexivity].
    + apply (h_of_ok 2 dspin sv 2 (sv_ok' 2)). lia.
    + apply (q4_of_ok 4 dspin sv 4 (sv_ok' 4)). lia.
  - assert (C : N = 1 \/ N = 2 \/ N = 3 \/ N = 4) by lia. clear h.
    destruct C as [->|[->|[->| ->]]]; (apply (short_pair Ph P4 h_of q4_of); [nm|nm|apply fh_ok|apply f4_ok|lia|vm_compute; reflexivity]).
Qed.
Lemma k_h_q5 : kills N (S_of Ph) (S_of P5).
Proof.
  destruct (Nat.le_gt_cases 6 N) as [h|h].
  - apply (kills_long N 2 5 Ph P5 (h_of sv) (q5_of sv)); [lia|lia|lia|lia|nl|nl| | |vm_compute; reflexivity].
    + apply (h_of_ok 2 dspin sv 2 (sv_ok' 2)). lia.
    + apply (q5_of_ok 5 dspin sv 5 (sv_ok' 5)). lia.
  - assert (C : N = 1 \/ N = 2 \/ N = 3 \/ N = 4 \/ N = 5) by lia. clear h.
    destruct C as [->|[->|[->|[->| ->]]]]; (apply (short_pair Ph P5 h_of q5_of); [nm|nm|apply fh_ok|apply f5_ok|lia|vm_compute; reflexivity]).
Qed.
Lemma k_q3_q4 : kills N (S_of P3) (S_of P4).
Proof.
  destruct (Nat.le_gt_cases 6 N) as [h|h].
  - apply (kills_long N 3 4 P3 P4 (q3_of sv) (q4_of sv)); [lia|lia|lia|lia|nl|nl| | |vm_compute; reflexivity].
    + apply (q3_of_ok 3 dspin sv 3 (sv_ok' 3)). lia.
    + apply (q4_of_ok 4 dspin sv 4 (sv_ok' 4)). lia.
  - assert (C : N = 1 \/ N = 2 \/ N = 3 \/ N = 4 \/ N = 5) by lia. clear h.
    destruct C as [->|[->|[->|[->| ->]]]]; (apply (short_pair P3 P4 q3_of q4_of); [nm|nm|apply f3_ok|apply f4_ok|lia|vm_compute; reflexivity]).
Qed.
Lemma k_q3_q5 : kills N (S_of P3) (S_of P5).
Proof.
  destruct (Nat.le_gt_cases 7 N) as [h|h].
  - apply (kills_long N 3 5 P3 P5 (q3_of sv) (q5_of sv)); [lia|lia|lia|lia|nl|nl| | |vm_compute; reflexivity].
    + apply (q3_of_ok 3 dspin sv 3 (sv_ok' 3)). lia.
    + apply (q5_of_ok 5 dspin sv 5 (sv_ok' 5)). lia.
  - assert (C : N = 1 \/ N = 2 \/ N = 3 \/ N = 4 \/ N = 5 \/ N = 6) by lia. clear h.
    destruct C as [->|[->|[->|[->|[->| ->]]]]]; (apply (short_pair P3 P5 q3_of q5_of); [nm|nm|apply f3_ok|apply f5_ok|lia|vm_compute; reflexivity]).
Qed.
Lemma k_q4_q5 : kills N (S_of P4) (S_of P5).
Proof.
  destruct (Nat.le_gt_cases 8 N) as [h|h].
  - apply (kills_long N 4 5 P4 P5 (q4_of sv) (q5_of sv)); [lia|lia|lia|lia|nl|nl| | |vm_compute; reflexivity].
    + apply (q4_of_ok 4 dspin sv 4 (sv_ok' 4)). lia.
    + apply (q5_of_ok 5 dspin sv 5 (sv_ok' 5)). lia.
  - assert (C : N = 1 \/ N = 2 \/ N = 3 \/ N = 4 \/ N = 5 \/ N = 6 \/ N = 7) by lia. clear h.
    destruct C as [->|[->|[->|[->|[->|[->| ->]]]]]]; (apply (short_pair P4 P5 q4_of q5_of); [nm|nm|apply f4_ok|apply f5_ok|lia|vm_compute; reflexivity]).
Qed.
End Pairs.

