(** Untruncated bosons (for C84): a representation of fermions, bosons without
    a cutoff and spins, used to compare the truncated linear operators with
    products and conjugates of expressions.

    Operators are the linear maps on functions Y -> S; a partial map
    [f : Y -> option (S * Y)], which sends |p> to c|q>, acts on functions by
    (f psi)(p) = c psi(q).  Composition of partial maps becomes multiplication
    in the opposite ring. *)
From Coq Require Import NArith ZArith List Bool Sorted Lia Setoid Morphisms.
From Verif Require Import BitsModel BitsSpec BitsProofs ExprModel ExprSpec ExprOrder ExprMap ExprEval ExprStd ExprCanon ExprMain ExprConj
  HSModel HSSpec HSEnum HSProofs HSMain LOpModel LOpSpec LOpFermion LOpSite LOpActF LOpActB LOpActS LOpComm LOpApply
  LOpMatrix LOpThrow LOpReject LOpMain LOpFaithful MonModel MonProofs.
Import ListNotations.
Close Scope nat_scope.
Open Scope N_scope.
Open Scope list_scope.

(** *** Linear maps on functions *)
Section Lin.
Context {S : Type} (so : scalar_ops S) (L : scalar_laws so) (MC : forall x y, s_mul so x y = s_mul so y x).
Context {Y : Type} (ok : Y -> Prop).
Notation "x +s y" := (s_add so x y) (at level 50, left associativity).
Notation "x *s y" := (s_mul so x y) (at level 40, left associativity).
Record lin : Type := mk_lin {
  lf : (Y -> S) -> Y -> S;
  lf_ext : forall u v, (forall p, ok p -> u p = v p) -> forall p, ok p -> lf u p = lf v p;
  lf_add : forall u v p, ok p -> lf (fun q => u q +s v q) p = lf u p +s lf v p;
  lf_mul : forall c u p, ok p -> lf (fun q => c *s u q) p = c *s lf u p
}.
Definition lin0 : lin.
Proof.
  refine (mk_lin (fun _ _ => s_zero so) _ _ _); intros; auto.
  - now rewrite (sl_add_0 so L).
  - now rewrite (mul_0_r so L).
Defined.
Definition lin1 : lin.
Proof. refine (mk_lin (fun u p => u p) _ _ _); intros; auto. Defined.
Lemma add4 a b c d : (a +s b) +s (c +s d) = (a +s c) +s (b +s d).
Proof.
  rewrite <- !(sl_add_assoc so L). f_equal. rewrite !(sl_add_assoc so L). f_equal. apply (sl_add_comm so L).
Qed.
Definition linadd (f g : lin) : lin.
Proof.
  refine (mk_lin (fun u p => lf f u p +s lf g u p) _ _ _).
  - intros u v H p hp. now rewrite (lf_ext f u v H p hp), (lf_ext g u v H p hp).
  - intros u v p hp. rewrite (lf_add f), (lf_add g) by auto. apply add4.
  - intros c u p hp. rewrite (lf_mul f), (lf_mul g) by auto. symmetry. apply (sl_dist_l so L).
Defined.
Definition linmul (f g : lin) : lin.
Proof.
  refine (mk_lin (fun u p => lf f (lf g u) p) _ _ _).
  - intros u v H p hp. apply (lf_ext f); auto. intros q hq. now apply (lf_ext g).
  - intros u v p hp. rewrite <- (lf_add f) by auto. apply (lf_ext f); auto. intros q hq. now apply (lf_add g).
  - intros c u p hp. rewrite <- (lf_mul f) by auto. apply (lf_ext f); auto. intros q hq. now apply (lf_mul g).
Defined.
Lemma opp_add a b : s_neg so (a +s b) = s_neg so a +s s_neg so b.
Proof. apply (s_neg_add so L). Qed.
Definition linopp (f : lin) : lin.
Proof.
  refine (mk_lin (fun u p => s_neg so (lf f u p)) _ _ _).
  - intros u v H p hp. now rewrite (lf_ext f u v H p hp).
  - intros u v p hp. rewrite (lf_add f) by auto. apply opp_add.
  - intros c u p hp. rewrite (lf_mul f) by auto. symmetry. apply (s_mul_neg_r so L).
Defined.
Definition lin_ring : ring_ops lin :=
  mk_ring lin (fun f g => forall u p, ok p -> lf f u p = lf g u p) lin0 lin1 linadd linmul linopp.
Lemma lin_is_ring : is_ring lin_ring.
Proof.
  constructor; cbn.
  - split.
    + intros f u p _. reflexivity.
    + intros f g H u p hp. symmetry. now apply H.
    + intros f g k H H' u p hp. rewrite H by auto. now apply H'.
  - intros f f' Hf g g' Hg u p hp. cbn. now rewrite Hf, Hg.
  - intros f f' Hf g g' Hg u p hp. cbn. rewrite Hf by auto. apply (lf_ext f'); auto.
  - intros f f' Hf u p hp. cbn. now rewrite Hf.
  - intros f g u p _. apply (sl_add_comm so L).
  - intros f g k u p _. apply (sl_add_assoc so L).
  - intros f u p _. apply (sl_add_0 so L).
  - intros f u p _. apply (sl_neg so L).
  - reflexivity.
  - reflexivity.
  - reflexivity.
  - intros f g k u p hp. now rewrite <- (lf_add f).
  - reflexivity.
Qed.
Definition lin_scalar (c : S) : lin.
Proof.
  refine (mk_lin (fun u p => c *s u p) _ _ _).
  - intros u v H p hp. now rewrite H.
  - intros u v p _. apply (sl_dist_l so L).
  - intros d u p _. rewrite !(sl_mul_assoc so L). f_equal. apply MC.
Defined.
(** the ring in which partial maps compose from the right to the left *)
Definition fring : ring_ops lin := op_ring lin_ring.
Lemma fring_is_ring : is_ring fring.
Proof. apply op_is_ring, lin_is_ring. Qed.
Lemma lin_scalars {G} (rho : G -> lin) : scalar_image so fring lin_scalar rho.
Proof.
  constructor; cbn.
  - intros u p _. apply (mul_0_l so L).
  - intros u p _. apply (sl_mul_1_l so L).
  - intros x y u p _. apply (sl_dist_r so L).
  - intros x y u p _. rewrite (sl_mul_assoc so L). f_equal. apply MC.
  - intros x g u p hp. symmetry. now apply (lf_mul (rho g)).
Qed.

(** partial maps *)
Definition papp (o : option (S * Y)) (u : Y -> S) : S :=
  match o with None => s_zero so | Some (c, q) => c *s u q end.
Definition pmap (f : Y -> option (S * Y)) (H : forall p c q, ok p -> f p = Some (c, q) -> ok q) : lin.
Proof.
  refine (mk_lin (fun u p => papp (f p) u) _ _ _).
  - intros u v E p hp. unfold papp. destruct (f p) as [[c q]|] eqn:F; auto. rewrite (E q); auto. eapply H; eauto.
  - intros u v p hp. unfold papp. destruct (f p) as [[c q]|]; [apply (sl_dist_l so L)|now rewrite (sl_add_0 so L)].
  - intros d u p hp. unfold papp. destruct (f p) as [[c q]|]; [|now rewrite (mul_0_r so L)].
    rewrite !(sl_mul_assoc so L). f_equal. apply MC.
Defined.
End Lin.

(** *** Relations along a homomorphism, for the generators that are not bosons *)
Section Transport.
Context {I S R1 R2 : Type} (so : scalar_ops S) (ro1 : ring_ops R1) (ro2 : ring_ops R2).
Context (inj1 : S -> R1) (rho1 : gen I -> R1) (inj2 : S -> R2) (rho2 : gen I -> R2).
Context (H2 : is_ring ro2) (phi : R1 -> R2).
Context (pe : forall a b, req ro1 a b -> req ro2 (phi a) (phi b))
  (pa : forall a b, req ro2 (phi (radd ro1 a b)) (radd ro2 (phi a) (phi b)))
  (pm : forall a b, req ro2 (phi (rmul ro1 a b)) (rmul ro2 (phi a) (phi b)))
  (po : forall a, req ro2 (phi (ropp ro1 a)) (ropp ro2 (phi a)))
  (p0 : req ro2 (phi (r0 ro1)) (r0 ro2)) (p1 : req ro2 (phi (r1 ro1)) (r1 ro2))
  (pin : forall c, req ro2 (phi (inj1 c)) (inj2 c))
  (prh : forall g, algebra_id g <> (-2)%Z -> req ro2 (phi (rho1 g)) (rho2 g)).
Context (K1 K2 : gen I -> Prop) (K21 : forall g, K2 g -> algebra_id g <> (-2)%Z -> K1 g).
Local Instance teqI : Equivalence (req ro2) := ri_equiv _ H2.
Local Instance taddI : Proper (req ro2 ==> req ro2 ==> req ro2) (radd ro2) := ri_add_ext _ H2.
Local Instance tmulI : Proper (req ro2 ==> req ro2 ==> req ro2) (rmul ro2) := ri_mul_ext _ H2.
Local Instance toppI : Proper (req ro2 ==> req ro2) (ropp ro2) := ri_opp_ext _ H2.
Lemma ppow x n : req ro2 (phi (rpow ro1 x n)) (rpow ro2 (phi x) n).
Proof. induction n as [|n IH]; cbn [rpow]; [exact p1|]. now rewrite pm, IH. Qed.
Lemma rpow_ext x y n : req ro2 x y -> req ro2 (rpow ro2 x n) (rpow ro2 y n).
Proof. intros E. induction n as [|n IH]; cbn [rpow]; [reflexivity|]. apply tmulI; auto. Qed.
Ltac tr H := let h := fresh in pose proof (pe _ _ H) as h; rewrite ?pm, ?pa, ?po, ?pm, ?pa, ?po, ?pm, ?p0, ?p1, ?pin, ?prh in h by discriminate; exact h.
Lemma transport : relations_on K1 so ro1 inj1 rho1 ->
  (forall d i j, K2 (GBoson d i) -> K2 (GBoson d j) ->
    req ro2 (rmul ro2 (rho2 (GBoson d i)) (rho2 (GBoson d j))) (rmul ro2 (rho2 (GBoson d j)) (rho2 (GBoson d i)))) ->
  (forall i j, K2 (GBoson false i) -> K2 (GBoson true j) -> i <> j ->
    req ro2 (rmul ro2 (rho2 (GBoson false i)) (rho2 (GBoson true j))) (rmul ro2 (rho2 (GBoson true j)) (rho2 (GBoson false i)))) ->
  (forall i, K2 (GBoson false i) -> K2 (GBoson true i) ->
    req ro2 (rmul ro2 (rho2 (GBoson false i)) (rho2 (GBoson true i)))
            (radd ro2 (r1 ro2) (rmul ro2 (rho2 (GBoson true i)) (rho2 (GBoson false i))))) ->
  (forall d i g, K2 (GBoson d i) -> K2 g -> algebra_id g <> (-2)%Z ->
    req ro2 (rmul ro2 (rho2 (GBoson d i)) (rho2 g)) (rmul ro2 (rho2 g) (rho2 (GBoson d i)))) ->
  relations_on K2 so ro2 inj2 rho2.
Proof.
  intros R b1 b2 b3 b4.
  assert (KK : forall g, K2 g -> algebra_id g <> (-2)%Z -> K1 g) by exact K21.
  constructor.
  - intros d i k. apply KK in k; [|discriminate]. tr (kr_c_sq _ _ _ _ _ R d i k).
  - intros d d' i j k k' ne. apply KK in k; [|discriminate]. apply KK in k'; [|discriminate]. tr (kr_c_anti _ _ _ _ _ R d d' i j k k' ne).
  - intros i k k'. apply KK in k; [|discriminate]. apply KK in k'; [|discriminate]. tr (kr_c_cdag _ _ _ _ _ R i k k').
  - exact b1.
  - exact b2.
  - exact b3.
  - intros m m' c c' i j k k' ne. apply KK in k; [|discriminate]. apply KK in k'; [|discriminate]. tr (kr_s_comm _ _ _ _ _ R m m' c c' i j k k' ne).
  - intros m i k. apply KK in k; [|discriminate]. tr (kr_s_pm _ _ _ _ _ R m i k).
  - intros m i k. apply KK in k; [|discriminate]. tr (kr_s_zp _ _ _ _ _ R m i k).
  - intros m i k. apply KK in k; [|discriminate]. tr (kr_s_zm _ _ _ _ _ R m i k).
  - intros m i c k nz h1. apply KK in k; [|discriminate].
    pose proof (pe _ _ (kr_s_nil _ _ _ _ _ R m i c k nz h1)) as h. rewrite ppow, p0 in h.
    rewrite <- h. apply rpow_ext. symmetry. apply prh. discriminate.
  - intros i h k e. apply KK in k; [|discriminate]. tr (kr_h_pm _ _ _ _ _ R i h k e).
  - intros i h k e. apply KK in k; [|discriminate]. tr (kr_h_pz _ _ _ _ _ R i h k e).
  - intros i h k e. apply KK in k; [|discriminate]. tr (kr_h_mz _ _ _ _ _ R i h k e).
  - intros i h k e. apply KK in k; [|discriminate]. tr (kr_h_zz _ _ _ _ _ R i h k e).
  - intros d i d' j k k'. symmetry. apply b4; auto. discriminate.
  - intros d i m c j k k'. apply KK in k; [|discriminate]. apply KK in k'; [|discriminate]. tr (kr_fs _ _ _ _ _ R d i m c j k k').
  - intros d i m c j k k'. apply b4; auto. discriminate.
Qed.
End Transport.

(** *** Fermions and spins as in the truncated space, bosons without a cutoff *)
Section URep.
Context {I S : Type} (io : index_ops I) (Hio : index_order io).
Context (so : scalar_ops S) (sq : N -> S) (half : Z -> S) (LL : lop_laws so sq half).
Let L : scalar_laws so := ll_ring _ _ _ LL.
Let MC : forall x y, s_mul so x y = s_mul so y x := ll_comm _ _ _ LL.
Notation es := (espace I).
Notation gact := (gen_act io so sq half).
Notation mact := (mono_act io so sq half).
Notation bnd := (obind so).
Notation "x +s y" := (s_add so x y) (at level 50, left associativity).
Notation "x *s y" := (s_mul so x y) (at level 40, left associativity).
Context (l : list es) (S0 : StronglySorted (es_before io) l) (W : Forall es_wf l).
Context (bas : list N) (HB : basis_of l bas).

(** a state of the fermions and spins, and the numbers of bosons *)
Definition ust : Type := (N * list N)%type.
Definition uok (p : ust) : Prop := valid_state l (fst p) /\ length (snd p) = length l.

Fixpoint pos (t : list es) (g : gen I) : option nat :=
  match t with [] => None | e :: t' => if carries io g e then Some 0%nat else option_map Datatypes.S (pos t' g) end.
Lemma pos_some t g : forall k, pos t g = Some k -> exists e, nth_error t k = Some e /\ carries io g e = true.
Proof.
  induction t as [|e t IH]; cbn [pos]; intros k E; [discriminate|].
  destruct (carries io g e) eqn:C.
  - injection E as <-. exists e. auto.
  - destruct (pos t g) as [k'|] eqn:P; cbn in E; [|discriminate]. injection E as <-. cbn. now apply IH.
Qed.
Lemma pos_none t g : pos t g = None -> forall e, In e t -> carries io g e = false.
Proof.
  induction t as [|e t IH]; cbn [pos]; intros E f; [intros []|]. destruct (carries io g e) eqn:C; [discriminate|].
  destruct (pos t g); [discriminate|]. intros [<-|i]; auto.
Qed.
Lemma pos_site g k : pos l g = Some k -> exists e, site io l g k e.
Proof. intros E. destruct (pos_some l g k E) as [e H]. exists e. exact H. Qed.
Lemma site_pos g k e : site io l g k e -> pos l g = Some k.
Proof.
  intros H. destruct (pos l g) as [k'|] eqn:P.
  - destruct (pos_site g k' P) as [e' H']. f_equal. apply (site_unique io Hio l g k' e' k e S0 H' H).
  - destruct H as [E C]. rewrite (pos_none l g P e) in C; [discriminate|]. eapply nth_error_In; eauto.
Qed.
Lemma pos_lt g k : pos l g = Some k -> (k < length l)%nat.
Proof. intros P. destruct (pos_site g k P) as [e [E _]]. apply nth_error_Some. congruence. Qed.

Definition ug (g : gen I) (p : ust) : option (S * ust) :=
  match g with
  | GBoson d _ =>
      match pos l g with
      | None => None
      | Some k =>
          let n := nth k (snd p) 0 in
          if d then Some (sq (n + 1), (fst p, setl (snd p) k (n + 1)))
          else if n =? 0 then None else Some (sq n, (fst p, setl (snd p) k (n - 1)))
      end
  | _ => match gact l g (fst p) with None => None | Some (c, y) => Some (c, (y, snd p)) end
  end.
Lemma ug_ok g p c q : uok p -> ug g p = Some (c, q) -> uok q.
Proof.
  intros [V Ln] E. destruct g as [d i|d i|m cc i]; cbn [ug] in E.
  - destruct (gact l _ (fst p)) as [[c' y]|] eqn:G; [|discriminate]. injection E as <- <-. split; auto. cbn.
    eapply (gen_act_valid io Hio so sq half L); eauto.
  - destruct (pos l _) as [k|]; [|discriminate]. destruct d.
    + injection E as <- <-. split; auto. cbn. now rewrite setl_length.
    + destruct (_ =? 0); [discriminate|]. injection E as <- <-. split; auto. cbn. now rewrite setl_length.
  - destruct (gact l _ (fst p)) as [[c' y]|] eqn:G; [|discriminate]. injection E as <- <-. split; auto. cbn.
    eapply (gen_act_valid io Hio so sq half L); eauto.
Qed.
Notation lin := (lin so uok).
Definition urho (g : gen I) : lin := pmap so L MC uok (ug g) (fun p c q => ug_ok g p c q).
Notation fr := (fring so L uok).
Notation inj := (lin_scalar so L MC uok).
Notation ro := (mat_ops so bas).

Definition phi (A : @mat S) : lin.
Proof.
  refine (mk_lin so uok (fun u p => ssum so (fun y => A y (fst p) *s u (y, snd p)) bas) _ _ _).
  - intros u v H p [V Ln]. apply ssum_ext. intros y iy. rewrite H; auto. split; cbn; auto. now apply HB.
  - intros u v p hp. rewrite <- (ssum_add so L). apply ssum_ext. intros. apply (sl_dist_l so L).
  - intros c u p hp. rewrite <- (ssum_mul_l so L). apply ssum_ext. intros y iy.
    rewrite !(sl_mul_assoc so L). f_equal. apply MC.
Defined.
Lemma phi_ext A B : req ro A B -> req fr (phi A) (phi B).
Proof.
  intros E u p [V Ln]. cbn. apply ssum_ext. intros y iy. f_equal. apply E; auto. now apply HB.
Qed.
Lemma phi_add A B : req fr (phi (radd ro A B)) (radd fr (phi A) (phi B)).
Proof. intros u p hp. cbn. rewrite <- (ssum_add so L). apply ssum_ext. intros. apply (sl_dist_r so L). Qed.
Lemma phi_mul A B : req fr (phi (rmul ro A B)) (rmul fr (phi A) (phi B)).
Proof.
  intros u p hp. cbn.
  rewrite (ssum_ext so _ (fun y => ssum so (fun z => (A y z *s B z (fst p)) *s u (y, snd p)) bas)) by (intros; symmetry; apply (ssum_mul_r so L)).
  rewrite (ssum_swap so L). apply ssum_ext. intros z iz. rewrite <- (ssum_mul_l so L). apply ssum_ext. intros y iy.
  rewrite (sl_mul_assoc so L). f_equal. apply MC.
Qed.
Lemma phi_opp A : req fr (phi (ropp ro A)) (ropp fr (phi A)).
Proof.
  intros u p hp. cbn. rewrite (ssum_ext so _ (fun y => s_neg so (s_one so) *s (A y (fst p) *s u (y, snd p)))).
  - rewrite (ssum_mul_l so L), (s_mul_neg_l so L). now rewrite (sl_mul_1_l so L).
  - intros y iy. now rewrite !(s_mul_neg_l so L), (sl_mul_1_l so L).
Qed.
Lemma phi_0 : req fr (phi (r0 ro)) (r0 fr).
Proof.
  intros u p hp. cbn. rewrite (ssum_ext so _ (fun _ => s_zero so)); [apply (ssum_0 so L)|]. intros. apply (mul_0_l so L).
Qed.
Lemma phi_scalar c : req fr (phi (mat_scalar so c)) (inj c).
Proof.
  intros u [x ns] [V Ln]. cbn in *. pose proof HB as [ND HV]. unfold mat_scalar.
  rewrite (ssum_single so L bas x); auto.
  - now rewrite N.eqb_refl.
  - now apply HV.
  - intros y _ ne. destruct (N.eqb_spec y x); [congruence|]. apply (mul_0_l so L).
Qed.
Lemma phi_1 : req fr (phi (r1 ro)) (r1 fr).
Proof.
  intros u p hp. transitivity (lf so uok (inj (s_one so)) u p); [exact (phi_scalar (s_one so) u p hp)|]. cbn. apply (sl_mul_1_l so L).
Qed.
Lemma phi_rho g : algebra_id g <> (-2)%Z -> req fr (phi (rho io so sq half l g)) (urho g).
Proof.
  intros nb u [x ns] [V Ln]. cbn [fst snd] in *. pose proof HB as [ND HV].
  assert (U : ug g (x, ns) = match gact l g x with None => None | Some (c, y) => Some (c, (y, ns)) end) by (destruct g; try reflexivity; cbn in nb; congruence).
  cbn [phi urho lf pmap fst snd]. rewrite U. unfold rho, col, papp.
  destruct (gact l g x) as [[c y]|] eqn:G; cbn [amp1].
  - rewrite (ssum_single so L bas y); auto.
    + now rewrite N.eqb_refl.
    + apply HV. eapply (gen_act_valid io Hio so sq half L); eauto.
    + intros z _ ne. destruct (N.eqb_spec y z); [congruence|]. apply (mul_0_l so L).
  - rewrite (ssum_ext so _ (fun _ => s_zero so)); [apply (ssum_0 so L)|]. intros. apply (mul_0_l so L).
Qed.

Lemma nth_setl (ns : list N) k v : (k < length ns)%nat -> nth k (setl ns k v) 0 = v.
Proof. intros h. apply nth_error_nth. now apply setl_nth_eq. Qed.
Lemma nth_setl_other (ns : list N) k k' v : k <> k' -> nth k' (setl ns k v) 0 = nth k' ns 0.
Proof.
  revert k k'. induction ns as [|n ns IH]; intros [|k] [|k'] ne; cbn [setl nth]; auto; congruence.
Qed.
Lemma setl_comm (ns : list N) : forall k k' v v', k <> k' -> setl (setl ns k v) k' v' = setl (setl ns k' v') k v.
Proof.
  induction ns as [|n ns IH]; intros [|k] [|k'] v v' ne; cbn [setl]; auto; try congruence.
  f_equal. apply IH. congruence.
Qed.
Lemma setl_nth (ns : list N) : forall k, (k < length ns)%nat -> setl ns k (nth k ns 0) = ns.
Proof. intros k h. apply setl_same. now apply nth_error_nth'. Qed.
Lemma known_pos g : known io l g -> exists k, pos l g = Some k /\ (k < length l)%nat.
Proof.
  intros [e [i C]]. destruct (pos l g) as [k|] eqn:P.
  - exists k. split; auto. now apply (pos_lt g).
  - rewrite (pos_none l g P e i) in C. discriminate.
Qed.
Lemma pos_dag d d' i : pos l (GBoson d i) = pos l (GBoson d' i).
Proof. clear. induction l as [|e t IH]; cbn [pos]; auto. rewrite IH. now destruct e. Qed.
Lemma pos_inj d d' i j k : pos l (GBoson d i) = Some k -> pos l (GBoson d' j) = Some k -> i = j.
Proof.
  intros P P'. destruct (pos_site _ _ P) as [e [E C]]. destruct (pos_site _ _ P') as [e' [E' C']].
  rewrite E in E'. injection E' as <-. destruct e as [|dd jj|]; cbn in C, C'; try discriminate.
  apply (sto_eq _ _ _ Hio) in C. apply (sto_eq _ _ _ Hio) in C'. congruence.
Qed.
Lemma mul3 a b c : a *s (b *s c) = b *s (a *s c).
Proof. rewrite !(sl_mul_assoc so L). f_equal. apply MC. Qed.

Lemma boson_far d d' i j : known io l (GBoson d i) -> known io l (GBoson d' j) -> i <> j ->
  req fr (rmul fr (urho (GBoson d i)) (urho (GBoson d' j))) (rmul fr (urho (GBoson d' j)) (urho (GBoson d i))).
Proof.
  intros Ki Kj ne u [x ns] [V Ln]. cbn [fst snd] in *.
  destruct (known_pos _ Ki) as [k [P hk]]. destruct (known_pos _ Kj) as [k' [P' hk']].
  assert (nk : k <> k') by (intros <-; apply ne; eapply pos_inj; eauto).
  cbn [fring op_ring rmul lin_ring linmul lf urho pmap ug fst snd]. rewrite P, P'.
  destruct d, d'; cbn [papp fst snd].
  - rewrite !nth_setl_other by congruence. rewrite (setl_comm ns k' k) by congruence. apply mul3.
  - destruct (nth k' ns 0 =? 0) eqn:Z; cbn [papp fst snd]; rewrite !nth_setl_other by congruence; rewrite Z; cbn [papp fst snd].
    + now rewrite (mul_0_r so L).
    + rewrite (setl_comm ns k' k) by congruence. apply mul3.
  - destruct (nth k ns 0 =? 0) eqn:Z; cbn [papp fst snd]; rewrite !nth_setl_other by congruence; rewrite Z; cbn [papp fst snd].
    + now rewrite (mul_0_r so L).
    + rewrite (setl_comm ns k' k) by congruence. apply mul3.
  - destruct (nth k' ns 0 =? 0) eqn:Z'; destruct (nth k ns 0 =? 0) eqn:Z; cbn [papp fst snd]; rewrite ?nth_setl_other by congruence;
      rewrite ?Z, ?Z'; cbn [papp fst snd]; rewrite ?(mul_0_r so L); auto.
    rewrite (setl_comm ns k' k) by congruence. apply mul3.
Qed.
Lemma sq_num n : sq n *s sq n = zmul so (Z.of_N n) (s_one so).
Proof. apply (ll_sq _ _ _ LL). Qed.
Lemma num_succ n : sq (n + 1) *s sq (n + 1) = s_one so +s sq n *s sq n.
Proof.
  rewrite !(sq_half so sq half LL), <- (ll_half_2 _ _ _ LL), <- (ll_half_add _ _ _ LL). f_equal. lia.
Qed.
Lemma num_0 : sq 0 *s sq 0 = s_zero so.
Proof. rewrite (sq_half so sq half LL). apply (half_0 so sq half LL). Qed.
Lemma boson_ccr i : known io l (GBoson false i) ->
  req fr (rmul fr (urho (GBoson false i)) (urho (GBoson true i)))
         (radd fr (r1 fr) (rmul fr (urho (GBoson true i)) (urho (GBoson false i)))).
Proof.
  intros Ki u [x ns] [V Ln]. cbn [fst snd] in *. destruct (known_pos _ Ki) as [k [P hk]].
  cbn [fring op_ring rmul radd r1 lin_ring linmul linadd lin1 lf urho pmap ug fst snd].
  rewrite (pos_dag true false i), P. set (n := nth k ns 0) in *. cbn [papp fst snd].
  rewrite nth_setl by (rewrite Ln; exact hk). destruct (N.eqb_spec (n + 1) 0); [lia|]. cbn [papp fst snd].
  replace (n + 1 - 1) with n by lia. rewrite setl_setl, (sl_mul_assoc so L), num_succ, (sl_dist_r so L), (sl_mul_1_l so L).
  assert (E0 : setl ns k n = ns) by (apply setl_nth; rewrite Ln; exact hk). rewrite E0. f_equal.
  destruct (N.eqb_spec n 0) as [z|nz]; cbn [papp fst snd].
  - rewrite z, num_0. apply (mul_0_l so L).
  - rewrite nth_setl by (rewrite Ln; exact hk). replace (n - 1 + 1) with n by lia. rewrite setl_setl, E0. symmetry. apply (sl_mul_assoc so L).
Qed.
Lemma boson_other d i g : known io l (GBoson d i) -> algebra_id g <> (-2)%Z ->
  req fr (rmul fr (urho (GBoson d i)) (urho g)) (rmul fr (urho g) (urho (GBoson d i))).
Proof.
  intros Ki nb u [x ns] [V Ln]. destruct (known_pos _ Ki) as [k [P hk]].
  assert (U : forall p, ug g p = match gact l g (fst p) with None => None | Some (c, y) => Some (c, (y, snd p)) end)
    by (intros p; destruct g; try reflexivity; cbn in nb; congruence).
  cbn [fring op_ring rmul lin_ring linmul lf urho pmap]. rewrite U. cbn [fst snd].
  cbn [ug fst snd]. rewrite P. destruct d.
  - cbn [papp]. rewrite U. cbn [fst snd]. destruct (gact l g x) as [[c y]|]; cbn [papp fst snd].
    + rewrite ?P. cbn [papp fst snd]. apply mul3.
    + now rewrite (mul_0_r so L).
  - destruct (nth k ns 0 =? 0) eqn:Z; cbn [papp].
    + destruct (gact l g x) as [[c y]|]; cbn [papp fst snd]; auto. rewrite ?P, ?Z. cbn [papp]. apply (mul_0_r so L).
    + rewrite U. cbn [fst snd]. destruct (gact l g x) as [[c y]|]; cbn [papp fst snd].
      * rewrite ?P, ?Z. cbn [papp fst snd]. apply mul3.
      * now rewrite (mul_0_r so L).
Qed.
Theorem urelations : relations_on (known io l) so fr inj urho.
Proof.
  apply (transport so ro fr (mat_scalar so) (rho io so sq half l) inj urho (fring_is_ring so L uok) phi
    phi_ext phi_add phi_mul phi_opp phi_0 phi_1 phi_scalar phi_rho (good io l)).
  - intros g k nb. split; auto. destruct g; auto. cbn in nb. congruence.
  - apply (matrices_relations io Hio so sq half LL l S0 W bas HB).
  - intros d i j k k'.
    destruct (i_eq io i j) eqn:E; [apply (sto_eq _ _ _ Hio) in E; subst j; apply (ri_equiv _ (fring_is_ring so L uok))|].
    apply boson_far; auto. intros ->. rewrite (proj2 (sto_eq _ _ _ Hio j j) eq_refl) in E. discriminate.
  - intros i j k k' ne. now apply boson_far.
  - intros i k k'. now apply boson_ccr.
  - intros d i g k kg nb. now apply boson_other.
Qed.
End URep.
