(** * Values of the expressions built by the Kanamori program (C91) *)
From Coq Require Import ZArith Lia QArith Qcanon Setoid Morphisms List String Field.
From Verif Require Import ExprModel ExprSpec ExprMap ExprEval ExprStd ExprMain ExprThrow ExprInst ExprOrder FockSpec
  PropExpr PropUnique PropHS PropFactories HeisModel HeisDen KanModel KanSpec.
Import List ListNotations.
Close Scope Qc_scope.
Close Scope Q_scope.
Close Scope Z_scope.
Close Scope string_scope.
Open Scope list_scope.

Lemma sto_k : index_order kio.
Proof. exact (sto_tuple _ _ sto_Z sto_string). Qed.

(** the electrons of the shell *)
Definition kgens : list (gen kidx) :=
  flat_map (fun m => flat_map (fun s => [GFermion true (m, s); GFermion false (m, s)]) spins2) orbitals.
Lemma kgens_simple : Forall simple kgens.
Proof. apply Forall_forall. intros g h. cbn in h. repeat (destruct h as [<-|h]; [exact Logic.I|]). destruct h. Qed.
Lemma kgens_half : half_if_spins hso kgens.
Proof. intros m c i h. cbn in h. repeat (destruct h as [h|h]; [discriminate h|]). destruct h. Qed.
Definition ksites : list (site kidx) := flat_map (fun m => map (fun s => SF (m, s)) spins2) orbitals.
Lemma ksites_in x : In x (map site_of kgens) <-> In x ksites.
Proof. cbn. tauto. Qed.

Notation kbuilt := (built kio hso kgens).
Notation Kk := (on_sites (map site_of kgens)).

(** a ring of operators of the shell *)
Record kring : Type := mk_kring { kR : Type; kro : ring_ops kR; kinj : cx -> kR; krho : gen kidx -> kR;
  k_ring : is_ring kro; k_si : scalar_image hso kro kinj krho; k_rel : relations_on Kk hso kro kinj krho }.
Notation kval K := (eval_expr (kro K) (kinj K) (krho K)).
Definition kden : Type := forall K : kring, kR K.
Definition has (v : kden) (e : kexpr) : Prop := kbuilt e /\ forall K, req (kro K) (kval K e) (v K).
Definition okv (v : kden) (r : res kexpr) : Prop := okp (has v) r.

Lemma has_mul (u v : kden) a b : has u a -> has v b ->
  okv (fun K => rmul (kro K) (u K) (v K)) (e_mul kgo hso a b).
Proof.
  intros [Ba Ea] [Bb Eb].
  destruct (e_mul_total kgo hso (fun _ => True) (std_make_frac kio hso (sd_laws _ cx_domain) cx_frac) a b) as [e E].
  { intros m c _. apply Forall_forall. trivial. }
  { intros m c _. apply Forall_forall. trivial. }
  exists e. split; [exact E|]. split; [exact (b_mul kio hso kgens a b e Ba Bb E)|].
  intros K. pose proof (ri_equiv _ (k_ring K)) as EQ. pose proof (ri_mul_ext _ (k_ring K)) as MX.
  rewrite <- (Ea K), <- (Eb K).
  exact (mul_value kio sto_k hso cx_domain kgens kgens_simple (kro K) (kinj K) (krho K) (k_ring K) (k_si K) (k_rel K) a b e Ba Bb E).
Qed.
Lemma has_add (u v : kden) a b : has u a -> has v b -> has (fun K => radd (kro K) (u K) (v K)) (e_add kgo hso a b).
Proof.
  intros [Ba Ea] [Bb Eb]. split; [apply b_add; assumption|].
  intros K. pose proof (ri_equiv _ (k_ring K)) as EQ. pose proof (ri_add_ext _ (k_ring K)) as MX.
  rewrite <- (Ea K), <- (Eb K).
  exact (add_value kio sto_k hso cx_domain (kro K) (kinj K) (krho K) (k_ring K) (k_si K) a b).
Qed.
Lemma has_sub (u v : kden) a b : has u a -> has v b ->
  has (fun K => radd (kro K) (u K) (ropp (kro K) (v K))) (e_sub kgo hso a b).
Proof.
  intros [Ba Ea] [Bb Eb]. split; [apply b_sub; assumption|].
  intros K. pose proof (ri_equiv _ (k_ring K)) as EQ. pose proof (ri_add_ext _ (k_ring K)) as MX.
  pose proof (ri_opp_ext _ (k_ring K)) as OX.
  rewrite <- (Ea K), <- (Eb K).
  exact (ev_sub_assign kgo (std_order kio sto_k) hso (sd_laws _ cx_domain) (kro K) (k_ring K) (kinj K) (krho K) (k_si K) a b).
Qed.
Lemma has_scale x (u : kden) a : has u a -> has (fun K => rmul (kro K) (kinj K x) (u K)) (e_mul_const_pre hso x a).
Proof.
  intros [Ba Ea]. split; [apply b_const_mul; assumption|].
  intros K. pose proof (ri_equiv _ (k_ring K)) as EQ. pose proof (ri_mul_ext _ (k_ring K)) as MX.
  rewrite <- (Ea K).
  exact (scale_value hso cx_domain (kro K) (kinj K) (krho K) (k_ring K) (k_si K) x a).
Qed.
Lemma has_zero : has (fun K => r0 (kro K)) [].
Proof.
  split.
  - change (@nil (list (gen kidx) * cx)) with (e_const (G := gen kidx) hso (s_zero hso)). apply b_scalar.
  - intros K. apply (ri_equiv _ (k_ring K)).
Qed.
Lemma has_eq (u v : kden) e : (forall K, req (kro K) (u K) (v K)) -> has u e -> has v e.
Proof.
  intros H [Be E]. split; [exact Be|]. intros K. pose proof (ri_equiv _ (k_ring K)) as EQ.
  rewrite (E K). apply H.
Qed.
Lemma okv_eq (u v : kden) r : (forall K, req (kro K) (u K) (v K)) -> okv u r -> okv v r.
Proof. intros H. apply okp_imp. intros x. apply has_eq. exact H. Qed.

(** an expression is determined by its values *)
Lemma has_unique (v : kden) a b : has v a -> has v b -> a = b.
Proof.
  intros [Ba Ea] [Bb Eb].
  apply (built_unique kio sto_k hso cx_domain kgens kgens_simple a b kgens_half Ba Bb).
  intros R ro inj rho Hr SI RL. pose proof (ri_equiv _ Hr) as EQ.
  pose proof (Ea (mk_kring R ro inj rho Hr SI RL)) as X. pose proof (Eb (mk_kring R ro inj rho Hr SI RL)) as Y.
  cbn in X, Y. rewrite X, Y. reflexivity.
Qed.

(** generators and number operators *)
Definition Cd (K : kring) (m : Z) (s : string) : kR K := krho K (GFermion true (m, s)).
Definition Cc (K : kring) (m : Z) (s : string) : kR K := krho K (GFermion false (m, s)).
Lemma has_gen g : In g kgens -> okv (fun K => krho K g) (factory kgo hso g).
Proof.
  intros i. pose proof (C15_factories kio hso cx_domain g) as E. eexists. split; [exact E|]. split.
  - apply (b_mono kio hso kgens (s_one hso) [g]); [intros x [<-|[]]; exact i|exact E].
  - intros K. pose proof (k_ring K) as Hr. pose proof (k_si K) as SI.
    pose proof (ri_equiv _ Hr) as EQ. pose proof (ri_mul_ext _ Hr) as MX. pose proof (ri_add_ext _ Hr) as AX.
    cbn [eval_expr eval_mono gen_expr].
    rewrite (si_1 _ _ _ _ SI), (ri_mul_1_l _ Hr), (ri_mul_1_r _ Hr), (ri_add_comm _ Hr), (ri_add_0 _ Hr). reflexivity.
Qed.
Lemma in_kgens b m s : In m orbitals -> In s spins2 -> In (GFermion b (m, s)) kgens.
Proof.
  intros hm hs. unfold kgens. apply in_flat_map. exists m. split; [exact hm|].
  apply in_flat_map. exists s. split; [exact hs|]. destruct b; cbn; auto.
Qed.
Lemma has_num m s : In m orbitals -> In s spins2 ->
  okv (fun K => num (kro K) (Cd K) (Cc K) m s) (kn m s).
Proof.
  intros hm hs.
  pose proof (in_kgens true m s hm hs) as i1. pose proof (in_kgens false m s hm hs) as i2.
  destruct (e_mono_total kgo hso not_half (std_make_int kio hso (sd_laws _ cx_domain)) (s_one hso)
    [GFermion true (m, s); GFermion false (m, s)]) as [n En]; [repeat constructor|].
  exists n. split; [exact En|]. split.
  - apply (b_mono kio hso kgens (s_one hso) [GFermion true (m, s); GFermion false (m, s)]).
    + intros x [<-|[<-|[]]]; assumption.
    + exact En.
  - intros K. pose proof (k_ring K) as Hr. pose proof (k_si K) as SI.
    pose proof (ri_equiv _ Hr) as EQ. pose proof (ri_mul_ext _ Hr) as MX.
    pose proof (e_mono_sound kgo (std_order kio sto_k) hso (sd_laws _ cx_domain) (kro K) Hr (kinj K) (krho K) SI _
      (sound_on kio sto_k hso cx_domain kgens kgens_simple (kro K) (kinj K) (krho K) Hr SI (k_rel K)) (s_one hso)
      [GFermion true (m, s); GFermion false (m, s)] n) as P.
    assert (F : Forall (adm Kk kgens) [GFermion true (m, s); GFermion false (m, s)]).
    { constructor; [|constructor; [|constructor]].
      - split; [exists true; exact i1|]. split; [exact (in_map site_of _ _ i1)|exact Logic.I].
      - split; [exists true; exact i1|]. split; [exact (in_map site_of _ _ i2)|exact Logic.I]. }
    rewrite (P F En). cbn [eval_mono]. unfold num, Cd, Cc.
    rewrite (si_1 _ _ _ _ SI), (ri_mul_1_l _ Hr), (ri_mul_1_r _ Hr). reflexivity.
Qed.

(** the compound operations *)
Lemma v_mul u v r1 r2 : okv u r1 -> okv v r2 -> okv (fun K => rmul (kro K) (u K) (v K)) (kmul r1 r2).
Proof.
  intros H1 H2. unfold kmul. eapply okp_bind; [exact H1|]. intros x Hx. eapply okp_bind; [exact H2|]. intros y Hy.
  apply (has_mul u v); assumption.
Qed.
Lemma v_add u v r1 r2 : okv u r1 -> okv v r2 -> okv (fun K => radd (kro K) (u K) (v K)) (kadd r1 r2).
Proof.
  intros H1 H2. unfold kadd. eapply okp_bind; [exact H1|]. intros x Hx. eapply okp_bind; [exact H2|]. intros y Hy.
  apply okp_ret. apply (has_add u v); assumption.
Qed.
Lemma v_sub u v r1 r2 : okv u r1 -> okv v r2 -> okv (fun K => radd (kro K) (u K) (ropp (kro K) (v K))) (ksub r1 r2).
Proof.
  intros H1 H2. unfold ksub. eapply okp_bind; [exact H1|]. intros x Hx. eapply okp_bind; [exact H2|]. intros y Hy.
  apply okp_ret. apply (has_sub u v); assumption.
Qed.
Lemma v_scale x u r : okv u r -> okv (fun K => rmul (kro K) (kinj K x) (u K)) (kscale x r).
Proof.
  intros H. unfold kscale. eapply okp_bind; [exact H|]. intros y Hy. apply okp_ret. apply (has_scale x u); assumption.
Qed.
Lemma v_ret u e : has u e -> okv u (Ok e).
Proof. apply okp_ret. Qed.
Lemma v_sub1 u r : okv u r -> okv (fun K => radd (kro K) (u K) (ropp (kro K) (r1 (kro K)))) (ksub1 r (re (q 1))).
Proof.
  intros H. unfold ksub1. eapply okp_bind; [exact H|]. intros a [Ba Ea]. apply okp_ret. split; [apply b_sub_const; exact Ba|].
  intros K. pose proof (k_ring K) as Hr. pose proof (k_si K) as SI.
  pose proof (ri_equiv _ Hr) as EQ. pose proof (ri_add_ext _ Hr) as AX. pose proof (ri_opp_ext _ Hr) as OX. pose proof (ri_mul_ext _ Hr) as MX.
  rewrite (sub_const_ins kgo hso (sd_laws _ cx_domain)).
  assert (Z : s_is_zero hso (re (q 1)) = false) by reflexivity. rewrite Z.
  rewrite (ev_ins kgo (std_order kio sto_k) hso (sd_laws _ cx_domain) (kro K) Hr (kinj K) (krho K) SI).
  cbn [eval_mono]. rewrite (ri_mul_1_r _ Hr), (ri_add_comm _ Hr), (Ea K). apply AX; [reflexivity|].
  assert (E : req (kro K) (radd (kro K) (kinj K (s_neg hso (re (q 1)))) (r1 (kro K))) (r0 (kro K))).
  { rewrite <- (si_1 _ _ _ _ SI), <- (si_add _ _ _ _ SI), <- (si_0 _ _ _ _ SI).
    assert (F : s_add hso (s_neg hso (re (q 1))) (s_one hso) = s_zero hso) by (cbn; f_equal; now apply Qc_is_canon).
    rewrite F. reflexivity. }
  rewrite <- (ri_add_0 _ Hr (ropp (kro K) (r1 (kro K)))), <- E, <- (ri_add_assoc _ Hr), (ri_opp _ Hr),
    (ri_add_comm _ Hr), (ri_add_0 _ Hr). reflexivity.
Qed.

(** loops *)
Lemma loop_val {X} (t : X -> kden) (f : kexpr -> X -> res kexpr) (l : list X) : 
  (forall x v H, In x l -> has v H -> okv (fun K => radd (kro K) (v K) (t x K)) (f H x)) ->
  forall v H, has v H -> okv (fun K => radd (kro K) (v K) (lsum (kro K) l (fun x => t x K))) (rloop f l H).
Proof.
  induction l as [|x l IH]; intros St v H Hv; cbn [rloop lsum fold_right].
  - apply v_ret. eapply has_eq; [|exact Hv]. intros K. pose proof (k_ring K) as Hr. pose proof (ri_equiv _ Hr) as EQ.
    rewrite (ri_add_comm _ Hr), (ri_add_0 _ Hr). reflexivity.
  - eapply okp_bind; [apply (St x v H); [left; reflexivity|exact Hv]|]. intros y Hy.
    eapply okv_eq; [|apply (IH (fun x v H i => St x v H (or_intror i)) _ y Hy)].
    intros K. cbn beta. pose proof (ri_equiv _ (k_ring K)) as EQ. symmetry. apply (ri_add_assoc _ (k_ring K)).
Qed.
