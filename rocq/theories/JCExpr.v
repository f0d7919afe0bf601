(** The Jaynes-Cummings Hamiltonian as an expression *)
From Coq Require Import NArith ZArith List Bool Lia QArith Qcanon Setoid Sorted Ncring Ncring_tac Cring.
From Verif Require Import ExprModel ExprSpec ExprOrder ExprMap ExprEval ExprStd ExprThrow ExprMain ExprInst PropExpr
  ConvSpec FockSpec PropUnique PolySpec PolyExpr PolyOsc PropPoly HSModel LOpModel LOpSpec JCModel.
Import ListNotations.
Close Scope Qc_scope.
Close Scope Q_scope.
Close Scope string_scope.
Open Scope nat_scope.
Open Scope list_scope.

Section JC.
Context {I T : Type} (io : index_ops I) (so : scalar_ops T) (Hio : index_order io) (D : scalar_domain so).
Context (HF : forall p q, q <> 0%Z -> s_make so (VRat p q) <> None).
Context (i j : I).
Notation go := (std_gen_ops io).
Let L := sd_laws _ D.
Notation Ad := (GBoson true i).
Notation An := (GBoson false i).
Notation Sp := (GSpin 2 Plus j).
Notation Sm := (GSpin 2 Minus j).
Notation Sz := (GSpin 2 Zcomp j).
Notation one := (s_one so).
Definition jc_gens : list (gen I) := [Ad; An; Sp; Sm; Sz].

Definition h_prog (hf hb wc wa Om : T) : prog (gen I) T :=
  PAdd (PAdd (PMul (PScale (s_mul so hb wc) (PMono one [Ad])) (PMono one [An])) (PScale (s_mul so hb wa) (PMono one [Sz])))
    (PScale (s_mul so (s_mul so hb hf) Om) (PAdd (PMul (PMono one [An]) (PMono one [Sp])) (PMul (PMono one [Ad]) (PMono one [Sm])))).
Definition n_prog : prog (gen I) T := PAdd (PMul (PMono one [Ad]) (PMono one [An])) (PMono one [Sz]).

Lemma jc_total P : exists e, run go so P = Ok e.
Proof.
  pose proof (std_make_frac io so L HF) as AM.
  assert (K : forall e : list (list (gen I) * T), Pe (fun _ => True) e).
  { intros e m c _. apply Forall_forall. auto. }
  induction P as [x|x m|a [u Eu] b [v Ev]|a [u Eu] b [v Ev]|a [u Eu] b [v Ev]|x a [u Eu]|a [u Eu] x|a [u Eu] x]; cbn [run];
    try rewrite Eu; try rewrite Ev; cbn [rbind]; eauto.
  - apply (e_mono_total go so _ AM). apply Forall_forall. auto.
  - apply (e_mul_total go so _ AM); apply K.
Qed.
Lemma h_run hf hb wc wa Om : jc_hamiltonian io so hf hb wc wa Om i j = run go so (h_prog hf hb wc wa Om).
Proof.
  unfold jc_hamiltonian, jf. cbn [run h_prog].
  destruct (jc_total (PMono one [Ad])) as [a Ea], (jc_total (PMono one [An])) as [b Eb], (jc_total (PMono one [Sz])) as [c Ec],
    (jc_total (PMono one [Sp])) as [d Ed], (jc_total (PMono one [Sm])) as [f Ef]. cbn [run] in Ea, Eb, Ec, Ed, Ef.
  rewrite Ea, Eb, Ec, Ed, Ef. cbn [rbind].
  destruct (e_mul go so (e_mul_const_pre so (s_mul so hb wc) a) b); cbn [rbind]; auto.
  destruct (e_mul go so b d); cbn [rbind]; auto. destruct (e_mul go so a f); cbn [rbind]; auto.
Qed.
Lemma n_run : jc_number io so i j = run go so n_prog.
Proof.
  unfold jc_number, jf. cbn [run n_prog].
  destruct (jc_total (PMono one [Ad])) as [a Ea], (jc_total (PMono one [An])) as [b Eb], (jc_total (PMono one [Sz])) as [c Ec].
  cbn [run] in Ea, Eb, Ec. rewrite Ea, Eb, Ec. cbn [rbind]. destruct (e_mul go so a b); cbn [rbind]; auto.
Qed.
Lemma c_run hf hb wc wa Om H N : jc_hamiltonian io so hf hb wc wa Om i j = Ok H -> jc_number io so i j = Ok N ->
  jc_commutator io so H N = run go so (PSub (PMul (h_prog hf hb wc wa Om) n_prog) (PMul n_prog (h_prog hf hb wc wa Om))).
Proof.
  intros EH EN. rewrite h_run in EH. rewrite n_run in EN.
  set (P := h_prog hf hb wc wa Om) in *. cbn [run]. rewrite EH, EN. reflexivity.
Qed.

Lemma gens_simple : Forall simple jc_gens.
Proof. repeat constructor. Qed.
Lemma gens_half : half_if_spins so jc_gens.
Proof.
  intros m c k _. destruct (s_make so (VRat 1 2)) as [h|] eqn:E; [|exfalso; revert E; apply HF; discriminate].
  exists h. pose proof (sl_make_rat so L 1 2 h E) as K. cbn [zmul] in K. change (Pos.to_nat 1) with 1 in K. change (Pos.to_nat 2) with 2 in K.
  cbn [nmul] in K. rewrite !(PolyProofs.ad0 so L) in K. exact K.
Qed.
Definition h_terms (hf hb wc wa Om : T) : list (list (gen I) * T) :=
  let g := s_mul so (s_mul so hb hf) Om in
  [([Sz], s_mul so hb wa); ([Ad; An], s_mul so hb wc); ([Ad; Sm], g); ([An; Sp], g)].

Lemma on_gens g : In g jc_gens -> on_sites (map site_of jc_gens) g.
Proof.
  intros h. split; [exact (in_map site_of jc_gens g h)|].
  pose proof gens_simple as GS. rewrite Forall_forall in GS. exact (GS g h).
Qed.
Lemma h_canonical hf hb wc wa Om : canonical_expr io so (drop_zeros so (h_terms hf hb wc wa Om)).
Proof.
  assert (ab : gen_before io Ad An) by constructor. assert (as_ : gen_before io An Sm) by constructor.
  split.
  - assert (S : StronglySorted (mono_before io) (map fst (h_terms hf hb wc wa Om))).
    { assert (X1 : mono_before io [Ad; An] [Ad; Sm]) by (right; split; [reflexivity|]; apply lb_next, lb_here; constructor).
      assert (X2 : mono_before io [Ad; An] [An; Sp]) by (right; split; [reflexivity|]; apply lb_here; constructor).
      assert (X3 : mono_before io [Ad; Sm] [An; Sp]) by (right; split; [reflexivity|]; apply lb_here; constructor).
      assert (Y : forall m n : list (gen I), length m < length n -> mono_before io m n) by (intros; now left).
      cbn [h_terms map fst].
      repeat match goal with |- StronglySorted _ _ => constructor | |- Forall _ _ => constructor end;
        first [exact X1|exact X2|exact X3|apply Y; cbn; lia]. }
    revert S. generalize (h_terms hf hb wc wa Om). unfold drop_zeros. induction l as [|[m c] l IH]; cbn [map filter fst snd]; intros S; [constructor|].
    inversion S as [|? ? S1 S2]; subst. destruct (negb (s_is_zero so c)); [|auto]. cbn [map fst]. constructor; auto.
    rewrite Forall_forall in *. intros k q. apply S2. apply in_map_iff in q. destruct q as [p [Q q]]. apply filter_In in q. apply in_map_iff. exists p. tauto.
  - intros m c k. unfold drop_zeros in k. apply filter_In in k. destruct k as [k n]. cbn [snd] in n. split.
    + assert (Em : m = [Sz] \/ m = [Ad; An] \/ m = [Ad; Sm] \/ m = [An; Sp]).
      { unfold h_terms in k; cbn [In] in k. destruct k as [k|[k|[k|[k|[]]]]]; inversion k; auto. }
      clear k n c. split; [|split].
      * destruct Em as [ -> | [ -> | [ -> | -> ]]]; repeat match goal with |- StronglySorted _ _ => constructor | |- Forall _ _ => constructor end;
          right; constructor.
      * intros pre a b post E K.
        assert (Q : (pre, a, b, post) = ([], Ad, An, []) \/ (pre, a, b, post) = ([], Ad, Sm, []) \/ (pre, a, b, post) = ([], An, Sp, [])).
        { destruct pre as [|p1 [|p2 pre]]; destruct Em as [Em|[Em|[Em|Em]]]; rewrite Em in E; cbn in E; try discriminate; inversion E; subst; auto;
            destruct pre; discriminate. }
        destruct Q as [Q|[Q|Q]]; inversion Q; subst; inversion K.
      * intros (pre & post & mu & cc & j' & q & E1 & E2 & n2 & E).
        assert (Q : length m <= 2) by (destruct Em as [ -> | [ -> | [ -> | -> ]]]; cbn; lia).
        rewrite E in Q. rewrite !app_length, repeat_length in Q. lia.
    + intros Z. subst c. rewrite (proj2 (sl_is_zero so L _) eq_refl) in n. discriminate.
Qed.

Section Ring.
Context {R : Type} (ro : ring_ops R) (inj : T -> R) (rho : gen I -> R).
Context (Hr : is_ring ro) (SI : scalar_image so ro inj rho) (RL : relations_on (on_sites (map site_of jc_gens)) so ro inj rho).
Local Instance opsJ : @Ring_ops R (r0 ro) (r1 ro) (radd ro) (rmul ro) (rsub ro) (ropp ro) (req ro) := nc_ops ro.
Local Instance ringJ : @Ring _ _ _ _ _ _ _ _ opsJ := nc_ring ro Hr.
Local Instance eqJ : Equivalence (req ro) := ri_equiv _ Hr.
Local Instance addJ : Morphisms.Proper (Morphisms.respectful (req ro) (Morphisms.respectful (req ro) (req ro))) (radd ro) := ri_add_ext _ Hr.
Local Instance mulJ : Morphisms.Proper (Morphisms.respectful (req ro) (Morphisms.respectful (req ro) (req ro))) (rmul ro) := ri_mul_ext _ Hr.
Local Instance oppJ : Morphisms.Proper (Morphisms.respectful (req ro) (req ro)) (ropp ro) := ri_opp_ext _ Hr.
Lemma n_value x y z p m :
  req ro (radd ro (rmul ro (rmul ro (r1 ro) (rmul ro x (r1 ro))) (rmul ro (r1 ro) (rmul ro y (r1 ro)))) (rmul ro (r1 ro) (rmul ro z (r1 ro))))
    (radd ro (rmul ro (r1 ro) (rmul ro z (r1 ro))) (radd ro (rmul ro (r1 ro) (rmul ro x (rmul ro y (r1 ro))))
      (radd ro (rmul ro (r0 ro) (rmul ro x (rmul ro m (r1 ro)))) (radd ro (rmul ro (r0 ro) (rmul ro y (rmul ro p (r1 ro)))) (r0 ro))))).
Proof. non_commutative_ring. Qed.
Lemma h_value hf hb wc wa Om :
  req ro (meaning ro inj rho (h_prog hf hb wc wa Om)) (eval_expr ro inj rho (h_terms hf hb wc wa Om)).
Proof.
  cbn [h_prog h_terms meaning eval_expr eval_mono]. rewrite !(si_1 _ _ _ _ SI).
  non_commutative_ring.
Qed.
Lemma comm_value hf hb wc wa Om :
  req ro (meaning ro inj rho (PSub (PMul (h_prog hf hb wc wa Om) n_prog) (PMul n_prog (h_prog hf hb wc wa Om)))) (r0 ro).
Proof.
  assert (on : forall g, In g jc_gens -> on_sites (map site_of jc_gens) g) by apply on_gens.
  cbn [h_prog n_prog meaning eval_mono]. rewrite !(si_1 _ _ _ _ SI).
  pose proof (fun g => si_comm _ _ _ _ SI (s_mul so hb wc) g) as Ca. pose proof (fun g => si_comm _ _ _ _ SI (s_mul so hb wa) g) as Cb.
  pose proof (fun g => si_comm _ _ _ _ SI (s_mul so (s_mul so hb hf) Om) g) as Cg.
  generalize dependent (inj (s_mul so hb wc)). generalize dependent (inj (s_mul so hb wa)). generalize dependent (inj (s_mul so (s_mul so hb hf) Om)).
  intros g Cg b Cb a Ca.
  assert (YX : req ro (rmul ro (rho An) (rho Ad)) (radd ro (r1 ro) (rmul ro (rho Ad) (rho An)))) by (apply (kr_a_adag _ _ _ _ _ RL); apply on; cbn; auto).
  assert (ZP : req ro (rmul ro (rho Sz) (rho Sp)) (radd ro (rmul ro (rho Sp) (rho Sz)) (rho Sp))) by (apply (kr_s_zp _ _ _ _ _ RL); apply on; cbn; auto).
  assert (ZM : req ro (rmul ro (rho Sz) (rho Sm)) (radd ro (rmul ro (rho Sm) (rho Sz)) (ropp ro (rho Sm)))) by (apply (kr_s_zm _ _ _ _ _ RL); apply on; cbn; auto 6).
  assert (BS : forall d c, In (GBoson d i) jc_gens -> In (GSpin 2 c j) jc_gens ->
    req ro (rmul ro (rho (GSpin 2 c j)) (rho (GBoson d i))) (rmul ro (rho (GBoson d i)) (rho (GSpin 2 c j)))).
  { intros d c h1 h2. symmetry. apply (kr_bs _ _ _ _ _ RL); now apply on. }
  pose proof (BS true Plus) as PX. pose proof (BS false Plus) as PY. pose proof (BS true Minus) as MX. pose proof (BS false Minus) as MY.
  pose proof (BS true Zcomp) as ZX. pose proof (BS false Zcomp) as ZY.
  cbn in PX, PY, MX, MY, ZX, ZY. specialize (PX ltac:(auto) ltac:(auto)). specialize (PY ltac:(auto) ltac:(auto)). specialize (MX ltac:(auto) ltac:(auto 6)).
  specialize (MY ltac:(auto) ltac:(auto 6)). specialize (ZX ltac:(auto) ltac:(auto 7)). specialize (ZY ltac:(auto) ltac:(auto 7)).
  clear BS on. pose proof (Ca Ad) as Ca1. pose proof (Ca An) as Ca2. pose proof (Ca Sz) as Ca3. pose proof (Cb Ad) as Cb1. pose proof (Cb An) as Cb2. pose proof (Cb Sz) as Cb3.
  pose proof (Cg Ad) as Cg1. pose proof (Cg An) as Cg2. pose proof (Cg Sz) as Cg3. clear Ca Cb Cg.
  assert (N0 : forall u v w, req ro (rmul ro u (rmul ro v w)) (rmul ro (rmul ro u v) w)) by (intros; non_commutative_ring).
  set (n := radd ro (rmul ro (rho Ad) (rho An)) (rho Sz)).
  assert (SN : forall c, (forall h, In h [Ad; An; Sz] -> req ro (rmul ro c (rho h)) (rmul ro (rho h) c)) -> req ro (rmul ro c n) (rmul ro n c)).
  { intros c Hc. unfold n. pose proof (Hc Ad (or_introl eq_refl)) as h1. pose proof (Hc An (or_intror (or_introl eq_refl))) as h2.
    pose proof (Hc Sz (or_intror (or_intror (or_introl eq_refl)))) as h3.
    transitivity (radd ro (rmul ro (rmul ro c (rho Ad)) (rho An)) (rmul ro c (rho Sz))); [non_commutative_ring|]. rewrite h1, h3.
    transitivity (radd ro (rmul ro (rho Ad) (rmul ro c (rho An))) (rmul ro (rho Sz) c)); [non_commutative_ring|]. rewrite h2. non_commutative_ring. }
  assert (An_ : req ro (rmul ro a n) (rmul ro n a)) by (apply SN; intros h [<-|[<-|[<-|[]]]]; symmetry; assumption).
  assert (Bn_ : req ro (rmul ro b n) (rmul ro n b)) by (apply SN; intros h [<-|[<-|[<-|[]]]]; symmetry; assumption).
  assert (Gn_ : req ro (rmul ro g n) (rmul ro n g)) by (apply SN; intros h [<-|[<-|[<-|[]]]]; symmetry; assumption).
  clear SN Ca1 Ca2 Ca3 Cb1 Cb2 Cb3 Cg1 Cg2 Cg3.
  assert (K1 : req ro (rmul ro (rho Sz) (rmul ro (rho Ad) (rho An))) (rmul ro (rmul ro (rho Ad) (rho An)) (rho Sz))).
  { rewrite N0, ZX, <- N0, ZY. non_commutative_ring. }
  assert (K0 : req ro (rmul ro (rmul ro (rho Ad) (rho An)) n) (rmul ro n (rmul ro (rho Ad) (rho An)))).
  { unfold n. transitivity (radd ro (rmul ro (rmul ro (rho Ad) (rho An)) (rmul ro (rho Ad) (rho An))) (rmul ro (rmul ro (rho Ad) (rho An)) (rho Sz))); [non_commutative_ring|].
    rewrite <- K1. non_commutative_ring. }
  assert (K4 : req ro (rmul ro (rho Sz) n) (rmul ro n (rho Sz))).
  { unfold n. transitivity (radd ro (rmul ro (rho Sz) (rmul ro (rho Ad) (rho An))) (rmul ro (rho Sz) (rho Sz))); [non_commutative_ring|].
    rewrite K1. non_commutative_ring. }
  assert (K2 : req ro (rmul ro (rmul ro (rho An) (rho Sp)) n) (rmul ro n (rmul ro (rho An) (rho Sp)))).
  { unfold n. transitivity (radd ro (rmul ro (rho An) (rmul ro (rmul ro (rho Sp) (rho Ad)) (rho An))) (rmul ro (rho An) (rmul ro (rho Sp) (rho Sz)))); [non_commutative_ring|].
    rewrite PX.
    transitivity (radd ro (rmul ro (rmul ro (rho An) (rho Ad)) (rmul ro (rho Sp) (rho An))) (rmul ro (rho An) (rmul ro (rho Sp) (rho Sz)))); [non_commutative_ring|].
    rewrite YX, PY. symmetry.
    transitivity (radd ro (rmul ro (rmul ro (rmul ro (rho Ad) (rho An)) (rho An)) (rho Sp)) (rmul ro (rmul ro (rho Sz) (rho An)) (rho Sp))); [non_commutative_ring|].
    rewrite ZY.
    transitivity (radd ro (rmul ro (rmul ro (rmul ro (rho Ad) (rho An)) (rho An)) (rho Sp)) (rmul ro (rho An) (rmul ro (rho Sz) (rho Sp)))); [non_commutative_ring|].
    rewrite ZP. non_commutative_ring. }
  assert (K3 : req ro (rmul ro (rmul ro (rho Ad) (rho Sm)) n) (rmul ro n (rmul ro (rho Ad) (rho Sm)))).
  { unfold n. transitivity (radd ro (rmul ro (rho Ad) (rmul ro (rmul ro (rho Sm) (rho Ad)) (rho An))) (rmul ro (rho Ad) (rmul ro (rho Sm) (rho Sz)))); [non_commutative_ring|].
    rewrite MX.
    transitivity (radd ro (rmul ro (rmul ro (rho Ad) (rho Ad)) (rmul ro (rho Sm) (rho An))) (rmul ro (rho Ad) (rmul ro (rho Sm) (rho Sz)))); [non_commutative_ring|].
    rewrite MY. symmetry.
    transitivity (radd ro (rmul ro (rmul ro (rho Ad) (rmul ro (rho An) (rho Ad))) (rho Sm)) (rmul ro (rmul ro (rho Sz) (rho Ad)) (rho Sm))); [non_commutative_ring|].
    rewrite YX, ZX.
    transitivity (radd ro (rmul ro (rmul ro (rho Ad) (radd ro (r1 ro) (rmul ro (rho Ad) (rho An)))) (rho Sm)) (rmul ro (rho Ad) (rmul ro (rho Sz) (rho Sm)))); [non_commutative_ring|].
    rewrite ZM. non_commutative_ring. }
  clear - K0 K2 K3 K4 An_ Bn_ Gn_ Hr.
  change (rmul ro (rho Ad) (rmul ro (rho An) (r1 ro))) with (rmul ro (rho Ad) (rmul ro (rho An) (r1 ro))).
  transitivity (radd ro
    (radd ro (radd ro (rmul ro a (rmul ro (rmul ro (rho Ad) (rho An)) n)) (rmul ro b (rmul ro (rho Sz) n)))
             (rmul ro g (radd ro (rmul ro (rmul ro (rho An) (rho Sp)) n) (rmul ro (rmul ro (rho Ad) (rho Sm)) n))))
    (ropp ro (radd ro (radd ro (rmul ro (rmul ro n a) (rmul ro (rho Ad) (rho An))) (rmul ro (rmul ro n b) (rho Sz)))
             (rmul ro (rmul ro n g) (radd ro (rmul ro (rho An) (rho Sp)) (rmul ro (rho Ad) (rho Sm))))))).
  { unfold n. non_commutative_ring. }
  rewrite K0, K2, K3, K4, <- An_, <- Bn_, <- Gn_. non_commutative_ring.
Qed.
End Ring.
End JC.
