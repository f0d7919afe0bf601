(** C85: enlarging the truncation of the bosons *)
From Coq Require Import NArith ZArith List Bool Sorted Permutation Lia Reals.
From Verif Require Import BitsModel BitsSpec BitsProofs ExprModel ExprSpec ExprOrder ExprMap ExprEval ExprStd ExprCanon ExprMain ExprThrow ExprInst PropExpr
  HSModel HSSpec HSEnum HSProofs HSMain PropHS LOpModel LOpSpec LOpFermion LOpSite LOpActF LOpActB LOpActS LOpComm LOpApply
  LOpMatrix LOpThrow LOpMain LOpReal LOpFaithful PropLOp PropLOp2 PropLOp3 UFock UFock2 UFock3 Cutoff.
Import ListNotations.
Close Scope R_scope.
Close Scope nat_scope.
Open Scope N_scope.
Open Scope list_scope.

(** [l'] has the same elementary spaces as [l], except that the spaces of the
    bosons may be larger *)
Definition larger_truncation {I} (l l' : list (espace I)) : Prop :=
  Forall2 (fun e e' => e' = e \/ exists d d' i, e = ESBoson d i /\ e' = ESBoson d' i /\ d <= d') l l'.
(** the basis states x of [l] and x' of [l'] have the same occupation numbers
    and spin projections *)
Definition same_state {I} (l l' : list (espace I)) (x x' : N) : Prop :=
  forall k e e', nth_error l k = Some e -> nth_error l' k = Some e' ->
    bit_field x (offset l k) (es_nbits e) = bit_field x' (offset l' k) (es_nbits e').

Lemma larger_grown {I} (l l' : list (espace I)) : larger_truncation l l' -> Forall2 grown l l'.
Proof.
  induction 1 as [|e e' t t' h F IH]; constructor; auto. destruct h as [->|[d [d' [i [-> [-> h]]]]]]; cbn; eauto.
  destruct e; cbn; auto. exists dim. split; [reflexivity|lia].
Qed.
Lemma ssum_part {S} (so : scalar_ops S) (L : scalar_laws so) (f : N -> S) : forall a b, NoDup a -> NoDup b -> incl a b ->
  (forall x, In x b -> ~ In x a -> f x = s_zero so) -> ssum so f b = ssum so f a.
Proof.
  induction a as [|x a IH]; intros b Na Nb ab Z.
  - transitivity (ssum so (fun _ => s_zero so) b); [|apply (ssum_0 so L)]. apply ssum_ext. intros x i. apply Z; auto.
  - inversion Na as [|? ? nx Na']; subst. destruct (in_split x b (ab x (or_introl eq_refl))) as [b1 [b2 ->]].
    rewrite (ssum_perm so L f (b1 ++ x :: b2) (x :: b1 ++ b2)) by (symmetry; apply Permutation_middle). cbn [ssum]. f_equal.
    apply NoDup_remove in Nb. destruct Nb as [Nb nb]. apply IH; auto.
    + intros y i. assert (y <> x) by (intros ->; contradiction). specialize (ab y (or_intror i)). apply in_app_iff in ab. apply in_app_iff.
      destruct ab as [|[|]]; auto. congruence.
    + intros y i ni. apply Z.
      * apply in_app_iff in i. apply in_app_iff. destruct i; auto. right. now right.
      * intros [<-|]; auto.
Qed.

(** The two operators, applied to vectors that agree on the smaller space (and
    vanish outside of it), give the same amplitudes on the smaller space. *)
Theorem C85_larger_truncation : forall I (io : index_ops I) S V (so : scalar_ops S) sq half
  (sv : sv_ops V S) ok amp size (h h' : hspace I) e Lp Lp',
  index_order io -> lop_laws so sq half -> sv_strict so sv ok amp size ->
  hs_fresh io h -> hs_fresh io h' -> Forall int_mult (spaces h) -> larger_truncation (spaces h) (spaces h') ->
  canonical_expr io so e -> make_loperator io e h = LOk Lp -> make_loperator io e h' = LOk Lp' ->
  forall v v' w w', state_of so ok amp size (spaces h) v -> state_of so ok amp size (spaces h') v' ->
  (forall x x', valid_state (spaces h) x -> valid_state (spaces h') x' -> same_state (spaces h) (spaces h') x x' -> amp v' x' = amp v x) ->
  (forall x', valid_state (spaces h') x' -> (forall x, valid_state (spaces h) x -> ~ same_state (spaces h) (spaces h') x x') -> amp v' x' = s_zero so) ->
  lop_run so sq half sv Lp v w -> lop_run so sq half sv Lp' v' w' ->
  forall y y', valid_state (spaces h) y -> valid_state (spaces h') y' -> same_state (spaces h) (spaces h') y y' -> amp w' y' = amp w y.
Proof.
  intros I io S V so sq half sv ok amp size h h' e Lp Lp' Hio LL SS Fr Fr' IM GR C E E' v v' w w' Vv Vv' A Z R R' y y' Vy Vy' Ry.
  pose proof (larger_grown _ _ GR) as G.
  assert (IM' : Forall int_mult (spaces h')).
  { clear - IM G. induction G as [|e e' t t' g F IH]; inversion IM; subst; constructor; auto.
    destruct e; cbn in g; subst; auto. destruct g as [d' [-> _]]. exact Logic.I. }
  pose proof (reachable_inv io Hio h (fresh_reachable io h Fr)) as Hi. pose proof (reachable_inv io Hio h' (fresh_reachable io h' Fr')) as Hi'.
  pose proof (ll_ring _ _ _ LL) as L.
  destruct (basis_exists io h Hi) as [bas HB]. destruct (basis_exists io h' Hi') as [bas' HB'].
  destruct (C32_action I io S V so sq half sv ok amp size h e Lp bas v Hio LL SS Fr IM C E HB Vv) as [_ [_ Q]].
  destruct (C32_action I io S V so sq half sv ok amp size h' e Lp' bas' v' Hio LL SS Fr' IM' C E' HB' Vv') as [_ [_ Q']].
  destruct (Q w R) as [_ [_ Aw]]. destruct (Q' w' R') as [_ [_ Aw']]. rewrite Aw, Aw'.
  set (l := spaces h) in *. set (l' := spaces h') in *.
  pose proof (proj1 Hi : StronglySorted (es_before io) l) as S0. pose proof (proj1 (proj2 Hi) : Forall es_wf l) as W.
  pose proof (proj1 Hi' : StronglySorted (es_before io) l') as S1. pose proof (proj1 (proj2 Hi') : Forall es_wf l') as W1.
  assert (EM : forall x, valid_state l x -> valid_state l' (emb l l' x) /\ same_state l l' x (emb l l' x)).
  { intros x Vx. exact (emb_ok l l' W1 G x Vx). }
  rewrite (ssum_part so L _ (map (emb l l') bas) bas').
  - rewrite ssum_map. apply ssum_ext. intros x ix. assert (Vx : valid_state l x) by now apply HB.
    destruct (EM x Vx) as [Ve Re]. rewrite (A x _ Vx Ve Re). f_equal. symmetry.
    apply (mel_same io Hio so sq half LL l l' S0 W S1 W1 G e y x y' (emb l l' x)); auto.
    intros m c i. exact (proj1 (proj2 C m c i)).
  - clear - HB EM W G W1. destruct HB as [N HV]. assert (IN : forall x, In x bas -> valid_state l x) by (intros; now apply HV).
    clear HV. induction N as [|x b nx N IH]; cbn [map]; constructor; [|apply IH; intros; apply IN; now right].
    intros i. apply in_map_iff in i. destruct i as [z [Ez iz]]. apply nx.
    assert (Vx : valid_state l x) by (apply IN; now left). assert (Vz : valid_state l z) by (apply IN; now right).
    destruct (EM x Vx) as [Vx' Rx]. destruct (EM z Vz) as [Vz' Rz].
    replace x with z; [exact iz|]. apply (same_inj l l' W W1 G z x (emb l l' z) (emb l l' x)); auto.
  - apply HB'.
  - intros x' i. apply in_map_iff in i. destruct i as [x [<- ix]]. apply HB'. apply EM. now apply HB.
  - intros x' ix' ni. assert (Vx' : valid_state l' x') by now apply HB'. rewrite Z; auto; [apply (mul_0_r so L)|].
    intros x Vx Rx. apply ni. apply in_map_iff. exists x. split; [|now apply HB].
    destruct (EM x Vx) as [Ve Re]. apply (same_inj l l' W W1 G x x (emb l l' x) x'); auto.
Qed.
Print Assumptions C85_larger_truncation.

(** ** Non-vacuity: the boson of [hs_ex] with 5 and with 9 states, a+_0 applied
    to the state with 3 bosons *)
Definition hs_ex9 : hspace Z := Eval vm_compute in
  fst (hs_of_args ioZ [ESSpin 3 0%Z; ESFermion 1%Z; ESBoson 9 0%Z; ESFermion 0%Z]).
Lemma hs_ex9_fresh : hs_fresh ioZ hs_ex9.
Proof.
  apply hf_vector with (l := [ESSpin 3 0%Z; ESFermion 1%Z; ESBoson 9 0%Z; ESFermion 0%Z]);
    [repeat constructor; cbn; lia|vm_compute; reflexivity].
Qed.
Lemma hs_ex9_spaces : spaces hs_ex9 = [ESFermion 0%Z; ESFermion 1%Z; ESBoson 9 0%Z; ESSpin 3 0%Z].
Proof. reflexivity. Qed.
Definition e85 : list (list (gen Z) * (R * R)) := [([GBoson true 0%Z], s_one cplx_ops)].
Definition v85 (bits : N) : @sparse (R * R) := mk_sparse (2 ^ bits) [(12, s_one cplx_ops)].
Example C85_ex : exists Lp Lp' w w',
  larger_truncation (spaces hs_ex) (spaces hs_ex9) /\ canonical_expr ioZ cplx_ops e85 /\
  make_loperator ioZ e85 hs_ex = LOk Lp /\ make_loperator ioZ e85 hs_ex9 = LOk Lp' /\
  state_of cplx_ops (sparse_nz cplx_ops) (sparse_amp cplx_ops) sp_size (spaces hs_ex) (v85 7) /\
  state_of cplx_ops (sparse_nz cplx_ops) (sparse_amp cplx_ops) sp_size (spaces hs_ex9) (v85 8) /\
  (forall x x', valid_state (spaces hs_ex) x -> valid_state (spaces hs_ex9) x' -> same_state (spaces hs_ex) (spaces hs_ex9) x x' ->
     sparse_amp cplx_ops (v85 8) x' = sparse_amp cplx_ops (v85 7) x) /\
  (forall x', valid_state (spaces hs_ex9) x' -> (forall x, valid_state (spaces hs_ex) x -> ~ same_state (spaces hs_ex) (spaces hs_ex9) x x') ->
     sparse_amp cplx_ops (v85 8) x' = s_zero cplx_ops) /\
  lop_run cplx_ops cplx_sq cplx_half (sparse_sv cplx_ops) Lp (v85 7) w /\
  lop_run cplx_ops cplx_sq cplx_half (sparse_sv cplx_ops) Lp' (v85 8) w'.
Proof.
  assert (NZ : s_one cplx_ops <> s_zero cplx_ops) by (intros Q; inversion Q; now apply R1_neq_R0).
  pose proof cplx_laws as L. pose proof cplx_lop as LL.
  assert (SS : sv_strict cplx_ops (sparse_sv cplx_ops) (sparse_nz cplx_ops) (sparse_amp cplx_ops) sp_size) by now apply C32_sparse.
  assert (LT : larger_truncation (spaces hs_ex) (spaces hs_ex9)).
  { destruct hs_ex_facts as [-> _]. rewrite hs_ex9_spaces. constructor; [now left|]. constructor; [now left|].
    constructor; [right; exists 5, 9, 0%Z; repeat split; lia|]. constructor; [now left|]. constructor. }
  assert (Cm : forall m c, In (m, c) e85 -> canonical_mono ioZ m).
  { intros m c [Q|[]]. inversion Q; subst. split; [repeat constructor|split].
    - intros [|a1 a2] ga gb post E; cbn in E; inversion E. destruct a2; discriminate.
    - intros (p & q & mu & c & j & n & _ & _ & h2 & E). destruct n as [|[|n]]; [lia|lia|]. cbn [repeat app] in E.
      destruct p as [|a1 a2]; cbn in E; inversion E. destruct a2; discriminate. }
  assert (C : canonical_expr ioZ cplx_ops e85).
  { split; [repeat constructor|]. intros m c i. split; [eauto|]. destruct i as [Q|[]]. now inversion Q; subst. }
  assert (E : exists Lp, make_loperator ioZ e85 hs_ex = LOk Lp).
  { apply (C35_no_bosons Z ioZ _ hs_ex e85 sto_Z hs_ex_fresh Cm). intros m c g [Q|[]] ig. inversion Q; subst. destruct ig as [<-|[]].
    destruct hs_ex_facts as [-> _]. exists (ESBoson 5 0%Z). split; [cbn; auto|reflexivity]. }
  assert (E' : exists Lp, make_loperator ioZ e85 hs_ex9 = LOk Lp).
  { apply (C35_no_bosons Z ioZ _ hs_ex9 e85 sto_Z hs_ex9_fresh Cm). intros m c g [Q|[]] ig. inversion Q; subst. destruct ig as [<-|[]].
    rewrite hs_ex9_spaces. exists (ESBoson 9 0%Z). split; [cbn; auto|reflexivity]. }
  destruct E as [Lp E]. destruct E' as [Lp' E'].
  assert (V : state_of cplx_ops (sparse_nz cplx_ops) (sparse_amp cplx_ops) sp_size (spaces hs_ex) (v85 7)).
  { destruct hs_ex_facts as [-> _]. split; [|split; [vm_compute; discriminate|]].
    - split; [split; [repeat constructor; intros []|repeat constructor]|repeat constructor; exact NZ].
    - intros x n. unfold sparse_amp, dat_amp, v85, sp_data in n. cbn [sp_find] in n. destruct (N.eqb_spec x 12); [subst x|congruence].
      split; [vm_compute; reflexivity|]. intros [|[|[|[|k]]]] e Q; inversion Q; subst; try reflexivity. destruct k; discriminate. }
  assert (V' : state_of cplx_ops (sparse_nz cplx_ops) (sparse_amp cplx_ops) sp_size (spaces hs_ex9) (v85 8)).
  { rewrite hs_ex9_spaces. split; [|split; [vm_compute; discriminate|]].
    - split; [split; [repeat constructor; intros []|repeat constructor]|repeat constructor; exact NZ].
    - intros x n. unfold sparse_amp, dat_amp, v85, sp_data in n. cbn [sp_find] in n. destruct (N.eqb_spec x 12); [subst x|congruence].
      split; [vm_compute; reflexivity|]. intros [|[|[|[|k]]]] e Q; inversion Q; subst; try reflexivity. destruct k; discriminate. }
  pose proof (reachable_inv ioZ sto_Z hs_ex (fresh_reachable ioZ hs_ex hs_ex_fresh)) as Hi.
  pose proof (reachable_inv ioZ sto_Z hs_ex9 (fresh_reachable ioZ hs_ex9 hs_ex9_fresh)) as Hi'.
  destruct (basis_exists ioZ hs_ex Hi) as [bas HB]. destruct (basis_exists ioZ hs_ex9 Hi') as [bas' HB'].
  assert (IM : Forall int_mult (spaces hs_ex)) by (destruct hs_ex_facts as [-> _]; repeat constructor; reflexivity).
  assert (IM' : Forall int_mult (spaces hs_ex9)) by (rewrite hs_ex9_spaces; repeat constructor; reflexivity).
  destruct (C32_action Z ioZ _ _ cplx_ops cplx_sq cplx_half _ _ _ _ hs_ex e85 Lp bas (v85 7) sto_Z LL SS hs_ex_fresh IM C E HB V) as [[w R] _].
  destruct (C32_action Z ioZ _ _ cplx_ops cplx_sq cplx_half _ _ _ _ hs_ex9 e85 Lp' bas' (v85 8) sto_Z LL SS hs_ex9_fresh IM' C E' HB' V') as [[w' R'] _].
  assert (W : Forall es_wf (spaces hs_ex)) by apply Hi. assert (W' : Forall es_wf (spaces hs_ex9)) by apply Hi'.
  assert (V12 : valid_state (spaces hs_ex) 12) by (apply V; unfold sparse_amp, dat_amp; cbn; exact NZ).
  assert (V12' : valid_state (spaces hs_ex9) 12) by (apply V'; unfold sparse_amp, dat_amp; cbn; exact NZ).
  assert (S12 : same_state (spaces hs_ex) (spaces hs_ex9) 12 12).
  { destruct hs_ex_facts as [-> _]. rewrite hs_ex9_spaces. intros [|[|[|[|k]]]] e e' Q Q'; inversion Q; inversion Q'; subst; try reflexivity.
    destruct k; discriminate. }
  exists Lp, Lp', w, w'. split; [exact LT|]. split; [exact C|]. split; [exact E|]. split; [exact E'|]. split; [exact V|]. split; [exact V'|].
  split; [|split; [|split; [exact R|exact R']]].
  - intros x x' Vx Vx' Rx. unfold sparse_amp, dat_amp, v85, sp_data. cbn [sp_find].
    destruct (N.eqb_spec x' 12) as [Q|Q], (N.eqb_spec x 12) as [Q'|Q']; try reflexivity; exfalso.
    + apply Q'. subst x'. apply (same_inj _ _ W W' (larger_grown _ _ LT) x 12 12 12 Vx V12 V12' V12' Rx S12); reflexivity.
    + apply Q. subst x. apply (same_inj _ _ W W' (larger_grown _ _ LT) 12 12 x' 12 V12 V12 Vx' V12' Rx S12); reflexivity.
  - intros x' Vx' N. unfold sparse_amp, dat_amp, v85, sp_data. cbn [sp_find]. destruct (N.eqb_spec x' 12) as [Q|Q]; [|reflexivity].
    exfalso. subst x'. exact (N 12 V12 S12).
Qed.
