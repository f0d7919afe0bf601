(** Views of state vectors: C53 - C56 *)
From Coq Require Import NArith ZArith List Bool Sorted Permutation Lia Arith Reals.
From Verif Require Import BitsModel BitsSpec BitsProofs ExprModel ExprSpec ExprOrder ExprEval ExprInst PropFactories
  HSModel HSSpec HSEnum HSProofs HSMain PropHS LOpModel LOpSpec LOpFermion LOpSite LOpActF LOpActB LOpActS LOpComm LOpApply LOpMatrix LOpMain LOpReal
  PropLOp2 PropLOp3 ViewModel ViewSpec ViewProofs ViewMapper.
Import ListNotations.
Close Scope R_scope.
Close Scope nat_scope.
Open Scope N_scope.
Open Scope list_scope.

(** ** C53: basis_mapper is a bijection between its states and 0..size()-1 *)
Inductive made_mapper {S} (so : scalar_ops S) sq half : imap -> Prop :=
| mm_list : forall l, made_mapper so sq half (mapper_of_list l)
| mm_op : forall L dim m, mapper_of_op so sq half L dim m -> made_mapper so sq half m
| mm_ops : forall Ls dim n m, mapper_of_ops so sq half Ls dim n m -> made_mapper so sq half m.

Lemma collect_ok {S} (st : @sparse S) m m' : im_ok m -> collect st m m' -> im_ok m'.
Proof. intros H [l [_ ->]]. now apply im_numbers_ok. Qed.
Lemma compositions_ok {S} (so : scalar_ops S) sq half Ls : forall k st m m', im_ok m -> compositions so sq half Ls k st m m' -> im_ok m'.
Proof.
  induction Ls as [|L Ls IH]; intros k st m m' Hm C; cbn [compositions] in C; destruct C as [m1 [C1 C]].
  - subst m'. destruct (Nat.eqb k 0); [eapply collect_ok; eauto|now subst].
  - destruct C as [m2 [C2 C]].
    assert (H2 : im_ok m2) by (eapply IH; [|exact C2]; destruct (Nat.eqb k 0); [eapply collect_ok; eauto|now subst]).
    clear C1 C2 m1 Hm. generalize dependent m'. generalize dependent m2. generalize (sparse_zero st). generalize st. clear st m.
    induction k as [|k IHk]; intros from to m2 H2 m' C; [now subst|].
    destruct C as [ent [to' [_ [_ C]]]]. destruct (Nat.eqb (sparse_n_nonzeros to') 0); [now subst|].
    destruct C as [m3 [C3 C4]]. eapply IHk; [|exact C4]. eapply IH; eauto.
Qed.
Lemma made_ok {S} (so : scalar_ops S) sq half m : made_mapper so sq half m -> im_ok m.
Proof.
  intros [l|L dim m' [ent [st [_ [_ C]]]]|Ls dim n m' C].
  - apply im_numbers_ok, im_ok_nil.
  - eapply collect_ok; [apply im_ok_nil|exact C].
  - unfold mapper_of_ops in C.
    destruct ((n =? 0) || _); [subst; split; [repeat constructor; intros []|reflexivity]|].
    destruct (2 ^ 31 <=? n); [subst; apply im_ok_nil|]. eapply compositions_ok; [apply im_ok_nil|exact C].
Qed.

Theorem C53_bijection : forall S (so : scalar_ops S) sq half m ps, made_mapper so sq half m -> Permutation ps m ->
  (* each state has one number below size() *)
  (forall x k, im_at m x = Some k -> k < mapper_size m) /\
  (* each number below size() belongs to exactly one state *)
  (forall k, k < mapper_size m -> exists x, im_at m x = Some k /\ forall y, im_at m y = Some k -> y = x) /\
  (* inverse_map(), for any order of the traversal of the map *)
  mapper_size (inverse_map ps) = mapper_size m /\
  (forall x k, im_at (inverse_map ps) k = Some x <-> im_at m x = Some k).
Proof.
  intros S so sq half m ps M P. pose proof (made_ok so sq half m M) as H. split; [|split; [|split]].
  - intros x k E. eapply im_ok_lt; eauto.
  - intros k hk. destruct (im_ok_onto m k H hk) as [x E]. exists x. split; auto. intros y E'.
    eapply (im_inj m y x); eauto; [apply H|now apply im_ok_values].
  - unfold mapper_size. rewrite (inverse_map_spec m ps H P), map_length. now rewrite (Permutation_length P).
  - intros x k. now apply inverse_map_at.
Qed.

Theorem C53_list : forall l,
  (forall x, im_at (mapper_of_list l) x <> None <-> In x l) /\
  (NoDup l -> forall i x, nth_error l i = Some x -> im_at (mapper_of_list l) x = Some (N.of_nat i)).
Proof.
  intros l. split.
  - intros x. rewrite im_at_None. pose proof (im_numbers_keys l [] x) as K. cbn in K. unfold mapper_of_list.
    split; intros H.
    + destruct (in_dec N.eq_dec x (map fst (fold_left im_number l []))) as [i|i]; [apply K in i; tauto|contradiction].
    + intros nx. apply nx. apply K. auto.
  - intros ND i x E. unfold mapper_of_list. rewrite (im_numbers_new l []) by exact ND. cbn [app length].
    apply im_at_In.
    + assert (Q : forall (a : list N) (b : list N), length a = length b -> map fst (combine a b) = a).
      { induction a as [|u a IH]; intros [|w b] Q; cbn in *; auto; try discriminate. f_equal. apply IH. lia. }
      rewrite Q; auto. now rewrite map_length, seq_length.
    + clear ND. assert (G : forall o, In (x, N.of_nat (o + i)) (combine l (map N.of_nat (seq o (length l))))).
      { revert i E. induction l as [|u l IH]; intros [|i] E o; cbn in E; try discriminate; cbn [length seq map combine].
        - inversion E; subst. left. f_equal. lia.
        - right. replace (o + Datatypes.S i)%nat with (Datatypes.S o + i)%nat by lia. now apply IH. }
      apply (G 0%nat).
Qed.
(** duplicates: the first occurrence counts *)
Theorem C53_duplicates : forall a x b, In x a -> mapper_of_list (a ++ x :: b) = mapper_of_list (a ++ b).
Proof.
  intros a x b i. unfold mapper_of_list. rewrite !fold_left_app. cbn [fold_left]. f_equal.
  unfold im_number at 1. destruct (im_at (fold_left im_number a []) x) eqn:E; auto. apply im_at_None in E. exfalso. apply E.
  apply im_numbers_keys. auto.
Qed.
Example C53_ex : im_at (mapper_of_list [12; 5; 12; 9]) 9 = Some 2 /\ mapper_size (mapper_of_list [12; 5; 12; 9]) = 3.
Proof. split; reflexivity. Qed.
Print Assumptions C53_bijection.
Print Assumptions C53_list.
Print Assumptions C53_duplicates.

(** ** C54: which states a basis_mapper made from operators contains *)
Section C54.
Context {I S : Type} (io : index_ops I) (so : scalar_ops S) (sq : N -> S) (half : Z -> S).
Context (h : hspace I) (bas : list N) (dim : N).
(** a linear operator made from the expression e *)
Definition lop_of (e : list (list (gen I) * S)) (L : lop S) : Prop :=
  canonical_expr io so e /\ make_loperator io e h = LOk L.

Theorem C54_one_operator : forall e L m,
  index_order io -> lop_laws so sq half -> s_one so <> s_zero so -> hs_fresh io h -> Forall int_mult (spaces h) ->
  basis_of (spaces h) bas -> hs_vec_size h = Some dim -> lop_of e L ->
  mapper_of_op so sq half L dim m ->
  forall x, im_at m x <> None <-> op_vec io so sq half (spaces h) bas e (vacuum so) x <> s_zero so.
Proof.
  intros e L m Hio LL N1 Fr IM HB Ed [[_ C] E] [ent [st [Ee [R Co]]]] x.
  pose proof (reachable_inv io Hio h (fresh_reachable io h Fr)) as Hi. pose proof (fresh_algs io Hio h Fr) as HA.
  destruct (vac_vec io so h Hi dim N1 Ed) as [Vv Av].
  assert (Cm : canonical_monos io e) by (intros m' c i; exact (proj1 (C m' c i))).
  destruct (run_spec io Hio so sq half LL (sparse_sv so) (sparse_nz so) (sparse_amp so) sp_size (C32_sparse S so (ll_ring _ _ _ LL)) h Hi HA IM bas HB e L (vac so dim) st Cm E Vv
     (ex_intro _ ent (conj Ee R))) as [Vs [_ A]].
  destruct (collect_spec so h st [] m Vs im_ok_nil Co) as [_ K]. rewrite im_at_None.
  assert (Q : sparse_amp so st x = op_vec io so sq half (spaces h) bas e (vacuum so) x).
  { rewrite A. apply ssum_ext. intros y _. now rewrite Av. }
  rewrite <- Q. specialize (K x). cbn in K. destruct (in_dec N.eq_dec x (map fst m)); tauto.
Qed.

(** The mapper made from O_1, ..., O_M and N contains exactly the basis states
    occurring in O_M^{n_M} ... O_1^{n_1}|0> (O_1 acts first) with n_1 + ... + n_M = N *)
Theorem C54_compositions : forall es Ls n,
  index_order io -> lop_laws so sq half -> s_one so <> s_zero so -> hs_fresh io h -> Forall int_mult (spaces h) ->
  basis_of (spaces h) bas -> hs_vec_size h = Some dim -> Forall2 lop_of es Ls -> n < 2 ^ 31 ->
  (exists m, mapper_of_ops so sq half Ls dim n m) /\
  (Ls <> [] -> forall m, mapper_of_ops so sq half Ls dim n m -> forall x, im_at m x <> None <->
     exists ns, composition_of (length Ls) (N.to_nat n) ns /\
       first_acts_first io so sq half (spaces h) bas es ns (vacuum so) x <> s_zero so).
Proof.
  intros es Ls n Hio LL N1 Fr IM HB Ed F hn.
  pose proof (reachable_inv io Hio h (fresh_reachable io h Fr)) as Hi. pose proof (fresh_algs io Hio h Fr) as HA.
  destruct (vac_vec io so h Hi dim N1 Ed) as [Vv Av].
  assert (F' : Forall2 (op_of io h) es Ls).
  { clear - F. induction F as [|e L es Ls [[_ C] E] F IH]; constructor; auto. split; auto. intros m' c i; exact (proj1 (C m' c i)). }
  assert (LN : length es = length Ls) by (clear - F; induction F; cbn; auto).
  assert (B31 : (2 ^ 31 <=? n) = false) by (apply N.leb_gt; exact hn).
  split.
  - unfold mapper_of_ops. destruct ((n =? 0) || _); [eauto|]. rewrite B31.
    eapply (compositions_total io Hio so sq half LL h Hi HA IM bas HB es Ls F'); eauto.
  - intros NE m C x. rewrite <- LN. unfold mapper_of_ops in C.
    destruct Ls as [|L Ls]; [congruence|]. destruct (N.eqb_spec n 0) as [->|n0]; cbn [orb] in C.
    + subst m. cbn [im_at]. pose proof (reached_0 io so sq half h bas es (vacuum so) x) as R0. unfold reached in R0.
      change (N.to_nat 0) with 0%nat. rewrite R0. unfold im_at, vacuum. cbn. destruct (x =? 0); [|intuition congruence].
      split; [intros _; exact N1|discriminate].
    + rewrite B31 in C.
      destruct (compositions_spec io Hio so sq half LL h Hi HA IM bas HB es (L :: Ls) F' (N.to_nat n) (vac so dim) [] m Vv im_ok_nil C) as [_ K].
      specialize (K x). rewrite im_at_None.
      assert (Q : reached io so sq half h bas es (N.to_nat n) (sparse_amp so (vac so dim)) x <-> reached io so sq half h bas es (N.to_nat n) (vacuum so) x).
      { split; apply reached_ext; intros y; auto. }
      rewrite Q in K. unfold reached in K. cbn [map In] in K.
      destruct (in_dec N.eq_dec x (map fst m)); tauto.
Qed.
(** When the operators commute, this is the documented set of states of
    O_1^{n_1} ... O_M^{n_M}|0> *)
Theorem C54_commuting : forall es ns f x,
  ForallOrdPairs (fun e e' => forall f y, op_vec io so sq half (spaces h) bas e (op_vec io so sq half (spaces h) bas e' f) y =
     op_vec io so sq half (spaces h) bas e' (op_vec io so sq half (spaces h) bas e f) y) es ->
  first_acts_first io so sq half (spaces h) bas es ns f x = last_acts_first io so sq half (spaces h) bas es ns f x.
Proof. intros es ns f x F. now apply faf_laf. Qed.
End C54.
Print Assumptions C54_one_operator.
Print Assumptions C54_compositions.
Print Assumptions C54_commuting.

(** The documented order (O_1^{n_1} ... O_M^{n_M}|0>, i.e. O_M acts first) is not
    what happens: for O_1 = c+_1 c_0, O_2 = c+_0 and N = 2, O_1 O_2|0> is the state
    |2>, but the mapper is empty, whatever the order of traversals. *)
Definition hs_two : hspace Z := Eval vm_compute in fst (hs_of_args ioZ [ESFermion 0%Z; ESFermion 1%Z]).
Definition hop : list (list (gen Z) * Z) := [([GFermion true 1%Z; GFermion false 0%Z], 1%Z)].
Definition cre0 : list (list (gen Z) * Z) := [([GFermion true 0%Z], 1%Z)].
Definition L_of (e : list (list (gen Z) * Z)) : lop Z := match make_loperator ioZ e hs_two with LOk L => L | _ => [] end.
Definition L_hop : lop Z := Eval vm_compute in L_of hop.
Definition L_cre0 : lop Z := Eval vm_compute in L_of cre0.
Notation noroot := (fun _ : N => 0%Z).
Notation nohalf := (fun _ : Z => 0%Z).
Theorem C54_order_refuted :
  make_loperator ioZ hop hs_two = LOk L_hop /\ make_loperator ioZ cre0 hs_two = LOk L_cre0 /\ hs_vec_size hs_two = Some 4 /\
  basis_of (spaces hs_two) [0; 1; 2; 3] /\
  (exists ns, composition_of 2 2 ns /\
     last_acts_first ioZ int_scalar_ops noroot nohalf (spaces hs_two) [0; 1; 2; 3] [hop; cre0] ns (vacuum int_scalar_ops) 2 <> 0%Z) /\
  (exists m, mapper_of_ops int_scalar_ops noroot nohalf [L_hop; L_cre0] 4 2 m) /\
  (forall m, mapper_of_ops int_scalar_ops noroot nohalf [L_hop; L_cre0] 4 2 m -> m = []).
Proof.
  split; [reflexivity|]. split; [reflexivity|]. split; [reflexivity|]. split; [|split; [|split]].
  - assert (R : hs_reachable ioZ hs_two) by (apply (of_args_reachable ioZ [ESFermion 0%Z; ESFermion 1%Z]); [reflexivity|repeat constructor]).
    assert (W : Forall es_wf (spaces hs_two)) by (repeat constructor).
    split; [repeat constructor; cbn; intuition discriminate|]. intros x. rewrite <- (basis_list_In _ W). reflexivity.
  - exists [1%nat; 1%nat]. split; [split; reflexivity|]. vm_compute. discriminate.
  - (* a run *)
    unfold mapper_of_ops. cbn [N.eqb orb N.leb]. change (N.to_nat 2) with 2%nat. change (2 ^ 31 <=? 2) with false. cbv beta iota.
    exists []. cbn [compositions Nat.eqb]. exists []. split; auto. exists []. split.
    + exists []. split; auto. exists []. split; [exists []; auto|].
      exists [(0, 1%Z)], (mk_sparse 4 [(1, 1%Z)]). split; [apply Permutation_refl|]. split; [reflexivity|].
      cbn [sparse_n_nonzeros sp_data length Nat.eqb]. exists []. split; [exists []; auto|].
      exists [(1, 1%Z)], (mk_sparse 4 []). split; [apply Permutation_refl|]. split; [reflexivity|]. reflexivity.
    + exists [(0, 1%Z)], (mk_sparse 4 []). split; [apply Permutation_refl|]. split; [reflexivity|]. reflexivity.
  - intros m C. unfold mapper_of_ops in C. cbn [N.eqb orb] in C. change (2 ^ 31 <=? 2) with false in C. cbv beta iota in C. change (N.to_nat 2) with 2%nat in C.
    cbn [compositions Nat.eqb] in C. destruct C as [m1 [-> [m2 [C2 C]]]].
    (* c+_0 |0>, c+_0 c+_0 |0> = 0 : nothing is collected *)
    assert (E2 : m2 = []).
    { destruct C2 as [m3 [-> [m4 [[m5 [-> ->]] C2]]]].
      destruct C2 as [ent [to' [Pe [Ea C2]]]]. cbn in Pe; apply Permutation_sym, Permutation_length_1_inv in Pe. subst ent.
      vm_compute in Ea. inversion Ea; subst to'. cbn [sparse_n_nonzeros sp_data length Nat.eqb] in C2.
      destruct C2 as [m6 [[m7 [-> ->]] C2]]. destruct C2 as [ent [to2 [Pe [Eb C2]]]].
      cbn in Pe; apply Permutation_sym, Permutation_length_1_inv in Pe. subst ent. vm_compute in Eb. inversion Eb; subst to2. exact C2. }
    subst m2. destruct C as [ent [to' [Pe [Ea C]]]]. cbn in Pe; apply Permutation_sym, Permutation_length_1_inv in Pe. subst ent.
    vm_compute in Ea. inversion Ea; subst to'. exact C.
Qed.
(** The parameter N is unsigned int, but it is used as an int: from 2^31 on the
    mapper is empty even if O_1^N|0> is not zero (here O_1 = 1). *)
Theorem C54_large_N_refuted : forall m,
  mapper_of_ops int_scalar_ops noroot nohalf [[([], 1%Z)]] 4 (2 ^ 31) m -> m = [].
Proof. intros m C. unfold mapper_of_ops in C. change (2 ^ 31 <=? 2 ^ 31) with true in C. change (2 ^ 31 =? 0) with false in C. exact C. Qed.
Print Assumptions C54_order_refuted.
Print Assumptions C54_large_N_refuted.

(** ** C55: operators acting through mapped views.
    The source vector v (of any type) is seen through the map ms: it has the
    amplitude [view_amp amp1 ms v x] in the state x.  L(src_view, dst_view) ... *)
Section C55.
Context {I S V1 V2 : Type} (io : index_ops I) (so : scalar_ops S) (sq : N -> S) (half : Z -> S).
Context (sv1 : sv_ops V1 S) (ok1 : V1 -> Prop) (amp1' : V1 -> N -> S) (size1 : V1 -> N).
Context (sv2 : sv_ops V2 S) (ok2 : V2 -> Prop) (amp2 : V2 -> N -> S) (size2 : V2 -> N).
Context (h : hspace I) (e : list (list (gen I) * S)) (Lp : lop S) (bas : list N) (ms md : imap) (v : V1) (dst : V2).
(** the requirements on maps and vectors *)
Definition view_setup : Prop :=
  NoDup (map fst ms) /\ NoDup (map fst md) /\ NoDup (map snd md) /\
  (forall x k, In (x, k) ms -> valid_state (spaces h) x /\ k < size1 v) /\
  (forall y k, In (y, k) md -> k < size2 dst) /\ ok1 v /\ ok2 dst.
Notation src := (view_amp so amp1' ms v).
Notation matr := (mel io so sq half (spaces h) e).
Notation runs ent := (lop_apply_to so sq half (mapped_sv so sv2 md) Lp ent (Live dst)).

(** ... gives the restriction of the operator when no monomial leads out of the
    states of md; amplitudes without a state are reset to zero; *)
Theorem C55_action :
  index_order io -> lop_laws so sq half -> sv_laws so sv1 ok1 amp1' size1 -> sv_laws so sv2 ok2 amp2 size2 ->
  hs_fresh io h -> Forall int_mult (spaces h) -> canonical_expr io so e -> make_loperator io e h = LOk Lp ->
  basis_of (spaces h) bas -> view_setup ->
  (forall x m c k y, src x <> s_zero so -> In (m, c) e -> mono_act io so sq half (spaces h) m x = Some (k, y) -> im_at md y <> None) ->
  (exists ent, mv_foreach so sv1 ms v ent) /\
  forall ent, mv_foreach so sv1 ms v ent -> exists w, runs ent = Some (Live w) /\ ok2 w /\ size2 w = size2 dst /\
    (forall y k, im_at md y = Some k -> amp2 w k = ssum so (fun x => s_mul so (matr y x) (src x)) bas) /\
    (forall k, ~ In k (map snd md) -> amp2 w k = s_zero so).
Proof.
  intros Hio LL SV1 SV2 Fr IM [_ C] E HB (N1 & N2 & N3 & B1 & B2 & O1 & O2) CL.
  pose proof (reachable_inv io Hio h (fresh_reachable io h Fr)) as Hi. pose proof (fresh_algs io Hio h Fr) as HA.
  pose proof (ll_ring _ _ _ LL) as L.
  assert (LI : lop_impl io so sq half (spaces h) e Lp).
  { apply (lop_make_impl io Hio so L sq half (ll_comm _ _ _ LL) (half_0 so sq half LL) h); auto. intros m c i. exact (proj1 (C m c i)). }
  assert (MF1 : map_fits size1 ms v) by (intros x k i; apply (B1 x k i)).
  destruct (mv_foreach_spec so L sv1 ok1 amp1' size1 SV1 ms v O1 N1 MF1) as [X Y]. split; auto.
  intros ent Ee. destruct (Y ent Ee) as [D1 [D2 D3]].
  destruct (svl_zero _ _ _ _ _ SV2 dst O2) as [Oz [Zz Az]].
  assert (MF2 : map_fits size2 md (sv_zero sv2 dst)) by (intros y k i; rewrite Zz; eauto).
  assert (FF : Forall (fun p => valid_state (spaces h) (fst p) /\ into io so sq half (fun y => In y (map fst md)) (spaces h) e (fst p)) ent).
  { apply Forall_forall. intros [x a] i. destruct (D2 x a i) as [Ea [Na Ki]]. cbn [fst]. split.
    - apply in_map_iff in Ki. destruct Ki as [[x' k] [<- j]]. apply (B1 _ _ j).
    - intros m c k y im Em. subst a. pose proof (CL x m c k y Na im Em) as Q. destruct (in_dec N.eq_dec y (map fst md)); auto.
      exfalso. apply Q. now apply im_at_None. }
  destruct (mapped_entries_live io so L sq half sv2 ok2 amp2 size2 SV2 md N2 N3 Hio (spaces h) e Lp ent (sv_zero sv2 dst) LI Oz MF2 FF)
    as [w [R [Ow [Zw [Fw Aw]]]]].
  exists w. split; [exact R|]. split; auto. split; [congruence|]. split.
  - intros y k Ek. assert (iy : In y (map fst md)) by (apply im_at_In in Ek; auto; now apply (in_map fst) in Ek).
    specialize (Aw y iy). unfold view_amp in Aw. rewrite Ek in Aw. rewrite Aw, Az, (sl_add_0 so L).
    apply (esum_basis so L _ src ent bas (proj1 HB) D1).
    + intros x a i. apply (D2 x a i).
    + exact D3.
    + intros x i. apply in_map_iff in i. destruct i as [[x' a] [<- i]]. cbn [fst]. apply HB.
      rewrite Forall_forall in FF. apply (FF _ i).
  - intros k nk. rewrite Fw by auto. apply Az.
Qed.

(** and throws std::out_of_range when some monomial does. *)
Theorem C55_out_of_range : forall x m c y,
  index_order io -> lop_laws so sq half -> sv_laws so sv1 ok1 amp1' size1 -> sv_laws so sv2 ok2 amp2 size2 ->
  hs_fresh io h -> Forall int_mult (spaces h) -> canonical_expr io so e -> make_loperator io e h = LOk Lp ->
  view_setup ->
  src x <> s_zero so -> In (m, c) e -> amp1 so (mono_act io so sq half (spaces h) m x) y <> s_zero so -> im_at md y = None ->
  forall ent, mv_foreach so sv1 ms v ent -> exists w, runs ent = Some (Thrown w).
Proof.
  intros x m c y Hio LL SV1 SV2 Fr IM [_ C] E (N1 & N2 & N3 & B1 & B2 & O1 & O2) Sx im nz oy ent Ee.
  pose proof (reachable_inv io Hio h (fresh_reachable io h Fr)) as Hi. pose proof (fresh_algs io Hio h Fr) as HA.
  pose proof (ll_ring _ _ _ LL) as L.
  assert (LI : lop_impl io so sq half (spaces h) e Lp).
  { apply (lop_make_impl io Hio so L sq half (ll_comm _ _ _ LL) (half_0 so sq half LL) h); auto. intros m' c' i. exact (proj1 (C m' c' i)). }
  assert (MF1 : map_fits size1 ms v) by (intros x' k i; apply (B1 x' k i)).
  destruct (mv_foreach_spec so L sv1 ok1 amp1' size1 SV1 ms v O1 N1 MF1) as [_ Y].
  destruct (Y ent Ee) as [D1 [D2 D3]].
  destruct (svl_zero _ _ _ _ _ SV2 dst O2) as [Oz [Zz Az]].
  assert (MF2 : map_fits size2 md (sv_zero sv2 dst)) by (intros y' k i; rewrite Zz; eauto).
  assert (FF : Forall (fun p => valid_state (spaces h) (fst p)) ent).
  { apply Forall_forall. intros [x' a] i. destruct (D2 x' a i) as [Ea [Na Ki]]. cbn [fst].
    apply in_map_iff in Ki. destruct Ki as [[x2 k] [<- j]]. apply (B1 _ _ j). }
  destruct (entries_any io so sq half sv2 ok2 amp2 size2 SV2 md N2 N3 (spaces h) e Lp ent LI FF (sv_zero sv2 dst) Oz MF2) as [[w R]|[w [R K]]].
  - exists w. exact R.
  - exfalso. apply im_at_None in oy. apply oy. specialize (D3 x Sx). apply in_map_iff in D3. destruct D3 as [[x' a] [E' i]]. cbn in E'. subst x'.
    eapply K; eauto.
Qed.
End C55.
Print Assumptions C55_action.
Print Assumptions C55_out_of_range.

(** The hypotheses of C54 and C55 are met: real numbers, the space [hs_ex] of
    two fermions, a boson with 5 states and a spin 1, the operators c+_0, c+_1. *)
Lemma cre_lop (i : Z) : In (ESFermion i) (spaces hs_ex) -> exists L, lop_of ioZ real_ops hs_ex (gen_expr real_ops (GFermion true i)) L.
Proof.
  intros Hi. assert (CM : canonical_mono ioZ [GFermion true i]).
  { split; [|split].
    - repeat constructor.
    - intros [|a1 a2] ga gb post E C; cbn in E; inversion E. destruct a2; discriminate.
    - intros (p & q & mu & c & j & n & _ & _ & h2 & E). destruct n as [|[|n]]; [lia|lia|]. cbn [repeat app] in E.
      destruct p as [|a1 a2]; cbn in E; inversion E. destruct a2; discriminate. }
  assert (HL : exists L, make_loperator ioZ (gen_expr real_ops (GFermion true i)) hs_ex = LOk L).
  { apply (C35_no_bosons Z ioZ _ hs_ex (gen_expr real_ops (GFermion true i)) sto_Z hs_ex_fresh).
  - intros m c [Q|[]]. inversion Q; subst. exact CM.
  - intros m c g [Q|[]] Hg. inversion Q; subst. destruct Hg as [<-|[]]. exists (ESFermion i). split; auto. cbn. apply Z.eqb_refl. }
  destruct HL as [L E]. exists L. split; auto. split; [repeat constructor|]. intros m c [Q|[]]. inversion Q; subst. split; [auto|apply R1_neq_R0].
Qed.
Example C54_ex :
  index_order ioZ /\ lop_laws real_ops real_sq real_half /\ s_one real_ops <> s_zero real_ops /\ hs_fresh ioZ hs_ex /\
  Forall int_mult (spaces hs_ex) /\ basis_of (spaces hs_ex) (basis_list (spaces hs_ex)) /\ hs_vec_size hs_ex = Some 128 /\
  exists Ls, Forall2 (lop_of ioZ real_ops hs_ex) [gen_expr real_ops (GFermion true 0%Z); gen_expr real_ops (GFermion true 1%Z)] Ls.
Proof.
  destruct lop_hypotheses_met as (A1 & A2 & _ & _ & _ & A3 & A4 & _).
  split; auto. split; auto. split; [cbn; apply R1_neq_R0|]. split; auto. split; auto.
  assert (W : Forall es_wf (spaces hs_ex)) by (destruct hs_ex_facts as [-> _]; repeat constructor).
  split; [|split; [reflexivity|]].
  - split; [|intros x; now apply basis_list_In]. pose proof (basis_list_sorted _ W) as St. clear -St.
    induction St as [|x t St IH F]; constructor; auto. rewrite Forall_forall in F. intros i. apply F in i. lia.
  - destruct (cre_lop 0%Z) as [L0 H0]; [destruct hs_ex_facts as [-> _]; cbn; auto|].
    destruct (cre_lop 1%Z) as [L1 H1]; [destruct hs_ex_facts as [-> _]; cbn; auto|]. exists [L0; L1]. constructor; [exact H0|constructor; [exact H1|constructor]].
Qed.
Example C55_ex : exists L,
  let e := gen_expr real_ops (GFermion true 0%Z) in let ms := [(2, 0)] in let v := [s_one real_ops] in
  lop_of ioZ real_ops hs_ex e L /\
  view_setup (fun _ : @dense R => True) dense_size (fun _ : @dense R => True) dense_size hs_ex ms [(3, 0); (0, 1)] v [s_zero real_ops; s_one real_ops] /\
  view_amp real_ops (dense_amp real_ops) ms v 2 <> s_zero real_ops /\
  (forall x m c k y, view_amp real_ops (dense_amp real_ops) ms v x <> s_zero real_ops -> In (m, c) e ->
     mono_act ioZ real_ops real_sq real_half (spaces hs_ex) m x = Some (k, y) -> im_at [(3, 0); (0, 1)] y <> None) /\
  (* ... and of C55_out_of_range, for a map without the state 3 *)
  amp1 real_ops (mono_act ioZ real_ops real_sq real_half (spaces hs_ex) [GFermion true 0%Z] 2) 3 <> s_zero real_ops /\ im_at [(0, 1)] 3 = None.
Proof.
  destruct (cre_lop 0%Z) as [L0 H0]; [destruct hs_ex_facts as [-> _]; cbn; auto|]. exists L0. split; [exact H0|].
  assert (MA : mono_act ioZ real_ops real_sq real_half (spaces hs_ex) [GFermion true 0%Z] 2 = Some (s_mul real_ops (s_one real_ops) (s_one real_ops), 3)) by (vm_compute; reflexivity).
  split; [|split; [|split; [|split]]].
  - split; [repeat constructor; intros []|]. split; [repeat constructor; cbn; intuition discriminate|]. split; [repeat constructor; cbn; intuition discriminate|].
    split; [|split; [|split]]; auto.
    + intros x k [E|[]]. inversion E; subst. split; [|reflexivity]. split; [reflexivity|].
      destruct hs_ex_facts as [-> _]. intros [|[|[|[|k]]]] e E'; cbn in E'; try (destruct k; discriminate); inversion E'; subst; vm_compute; reflexivity.
    + intros y k [E|[E|[]]]; inversion E; subst; reflexivity.
  - cbn. apply R1_neq_R0.
  - intros x m c k y nz [E|[]] Em. inversion E; subst. assert (x = 2) as ->.
    { unfold view_amp, im_at in nz. cbn [sp_find] in nz. destruct (N.eqb_spec x 2); auto. congruence. }
    rewrite MA in Em. inversion Em; subst. discriminate.
  - rewrite MA. cbn. rewrite Rmult_1_l. apply R1_neq_R0.
  - reflexivity.
Qed.
