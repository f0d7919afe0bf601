(** Changing the scalar type: if [phi] is an injective homomorphism of scalar
    types, then every expression operation that succeeds over the first type
    gives the image of its result over the second one. *)
From Coq Require Import ZArith Bool Lia List Sorted.
From Verif Require Import ExprModel ExprSpec ExprOrder ExprMap ExprEval.
Import ListNotations.
Open Scope nat_scope.
Open Scope list_scope.

Section Hom.
Context {G S T : Type} (go : gen_ops G) (so : scalar_ops S) (to : scalar_ops T) (phi : S -> T).

Record scalar_hom : Prop := {
  sh_zero : phi (s_zero so) = s_zero to;
  sh_add : forall x y, phi (s_add so x y) = s_add to (phi x) (phi y);
  sh_sub : forall x y, phi (s_sub so x y) = s_sub to (phi x) (phi y);
  sh_mul : forall x y, phi (s_mul so x y) = s_mul to (phi x) (phi y);
  sh_neg : forall x, phi (s_neg so x) = s_neg to (phi x);
  sh_conj : forall x, phi (s_conj so x) = s_conj to (phi x);
  sh_is_zero : forall x, s_is_zero to (phi x) = s_is_zero so x;
  sh_make : forall v x, s_make so v = Some x -> s_make to v = Some (phi x)
}.
Context (H : scalar_hom).

Definition emap_map (e : list (list G * S)) : list (list G * T) :=
  map (fun p => (fst p, phi (snd p))) e.
Notation hm := emap_map.

Lemma hm_find k e : map_find go k (hm e) = option_map phi (map_find go k e).
Proof.
  induction e as [|[x v] e IH]; simpl; auto.
  destruct (mono_lt go x k); auto. destruct (mono_lt go k x); auto.
Qed.
Lemma hm_emplace k c e :
  map_emplace go k (phi c) (hm e) = (hm (fst (map_emplace go k c e)), snd (map_emplace go k c e)).
Proof.
  induction e as [|[x v] e IH]; simpl; auto.
  destruct (mono_lt go x k).
  - rewrite IH. destruct (map_emplace go k c e); reflexivity.
  - destruct (mono_lt go k x); reflexivity.
Qed.
Lemma hm_assign k c e : map_assign go k (phi c) (hm e) = hm (map_assign go k c e).
Proof.
  induction e as [|[x v] e IH]; simpl; auto.
  destruct (mono_lt go x k); [simpl; now rewrite IH|]. destruct (mono_lt go k x); reflexivity.
Qed.
Lemma hm_erase k e : map_erase go k (hm e) = hm (map_erase go k e).
Proof.
  induction e as [|[x v] e IH]; simpl; auto.
  destruct (mono_lt go x k); [simpl; now rewrite IH|]. destruct (mono_lt go k x); reflexivity.
Qed.

Lemma hm_add_entry k c e : add_entry go to (k, phi c) (hm e) = hm (add_entry go so (k, c) e).
Proof.
  unfold add_entry; simpl fst; simpl snd. rewrite hm_find.
  destruct (map_find go k e) as [v|]; simpl.
  - rewrite <- (sh_add H), (sh_is_zero H), hm_assign.
    destruct (s_is_zero so (s_add so v c)); auto. apply hm_erase.
  - now rewrite hm_emplace.
Qed.
Lemma hm_sub_entry k c e : sub_entry go to (k, phi c) (hm e) = hm (sub_entry go so (k, c) e).
Proof.
  unfold sub_entry; simpl fst; simpl snd. rewrite hm_find.
  destruct (map_find go k e) as [v|]; simpl.
  - rewrite <- (sh_sub H), (sh_is_zero H), hm_assign.
    destruct (s_is_zero so (s_sub so v c)); auto. apply hm_erase.
  - now rewrite <- (sh_zero H), <- (sh_sub H), hm_emplace.
Qed.
Lemma hm_store k c e : store_monomial go to k (phi c) (hm e) = hm (store_monomial go so k c e).
Proof. rewrite !store_is_ins. apply hm_add_entry. Qed.

Lemma hom_add b : forall a, e_add_assign go to (hm a) (hm b) = hm (e_add_assign go so a b).
Proof.
  unfold e_add_assign. induction b as [|[k c] b IH]; simpl; auto.
  intros a. now rewrite hm_add_entry, IH.
Qed.
Lemma hom_sub b : forall a, e_sub_assign go to (hm a) (hm b) = hm (e_sub_assign go so a b).
Proof.
  unfold e_sub_assign. induction b as [|[k c] b IH]; simpl; auto.
  intros a. now rewrite hm_sub_entry, IH.
Qed.
Lemma hom_neg a : e_neg to (hm a) = hm (e_neg so a).
Proof.
  unfold e_neg, hm. rewrite !map_map. apply map_ext. intros [m c]; simpl. now rewrite (sh_neg H).
Qed.
Lemma hom_const x : e_const to (phi x) = hm (@e_const G S so x).
Proof. unfold e_const. rewrite (sh_is_zero H). destruct (s_is_zero so x); reflexivity. Qed.

Notation rec1T := (list G -> S -> list (list G * S) -> res (list (list G * S))).
Notation rec2T := (list G -> T -> list (list G * T) -> res (list (list G * T))).
Definition rec_hom (r1 : rec1T) (r2 : rec2T) : Prop :=
  forall m c t t', r1 m c t = Ok t' -> r2 m (phi c) (hm t) = Ok (hm t').

Lemma hom_process_terms r1 r2 pre post c : rec_hom r1 r2 -> forall ts t t',
  process_terms so r1 pre post c ts t = Ok t' ->
  process_terms to r2 pre post (phi c) ts (hm t) = Ok (hm t').
Proof.
  intros Hr. induction ts as [|[g v] ts IH]; simpl; intros t t' E.
  - inversion E; auto.
  - destruct (s_make so v) as [x|] eqn:Ev; [|discriminate]. rewrite (sh_make H _ _ Ev).
    destruct (r1 (pre ++ g :: post) (s_mul so c x) t) as [t1| |] eqn:E1; try discriminate.
    simpl in E. apply Hr in E1. rewrite (sh_mul H) in E1. rewrite E1. simpl. auto.
Qed.
Lemma hom_process_f r1 r2 pre post c f : rec_hom r1 r2 -> forall t t',
  process_f so r1 pre post c f t = Ok t' ->
  process_f to r2 pre post (phi c) f (hm t) = Ok (hm t').
Proof.
  intros Hr t t'. unfold process_f.
  destruct (vn_is_zero (const_term f)); simpl.
  - apply hom_process_terms; auto.
  - destruct (s_make so (const_term f)) as [x|] eqn:Ev; [|discriminate]. rewrite (sh_make H _ _ Ev).
    destruct (r1 (pre ++ post) (s_mul so c x) t) as [t1| |] eqn:E1; try discriminate.
    simpl. apply Hr in E1. rewrite (sh_mul H) in E1. rewrite E1. simpl.
    apply hom_process_terms; auto.
Qed.

Definition loop_hom (a : @loop_res G S) (b : @loop_res G T) : Prop :=
  match a with
  | LDone m c sw t => b = LDone m (phi c) sw (hm t)
  | LReturn t => b = LReturn (hm t)
  | _ => True
  end.

Lemma hom_sort_pass r1 r2 : rec_hom r1 r2 -> forall k n m c sw t,
  loop_hom (sort_pass go so r1 k n m c sw t) (sort_pass go to r2 k n m (phi c) sw (hm t)).
Proof.
  intros Hr. induction k as [|k IH]; simpl; intros n m c sw t; auto.
  destruct (nth_error m (n - 1)) as [a|]; simpl; auto.
  destruct (nth_error m n) as [b|]; simpl; auto.
  destruct (g_gt go a b).
  - destruct (g_swap go a b) as [cc f].
    destruct (process_f so r1 (firstn (n - 1) m) (skipn (n + 1) m) c f t) as [t1| |] eqn:Ep; simpl; auto.
    rewrite (hom_process_f r1 r2 _ _ c f Hr t t1 Ep).
    destruct (vn_eqb cc (VInt 0)); simpl; auto.
    destruct (s_make so cc) as [x|] eqn:Ex; simpl; auto.
    rewrite (sh_make H _ _ Ex). rewrite <- (sh_mul H). apply IH.
  - destruct (g_simplify go a b) as [f|]; [|apply IH].
    destruct (process_f so r1 (firstn (n - 1) m) (skipn (n + 1) m) c f t) as [t1| |] eqn:Ep; simpl; auto.
    now rewrite (hom_process_f r1 r2 _ _ c f Hr t t1 Ep).
Qed.

Lemma hom_sort_loop r1 r2 : rec_hom r1 r2 -> forall n_max m c t,
  loop_hom (sort_loop go so r1 n_max m c t) (sort_loop go to r2 n_max m (phi c) (hm t)).
Proof.
  intros Hr. induction n_max as [|n IH]; intros m c t.
  - simpl. reflexivity.
  - change (sort_loop go so r1 (Datatypes.S n) m c t) with
      (match sort_pass go so r1 (Datatypes.S n) 1 m c false t with
       | LDone m' coeff' true target' => sort_loop go so r1 n m' coeff' target'
       | r => r end).
    change (sort_loop go to r2 (Datatypes.S n) m (phi c) (hm t)) with
      (match sort_pass go to r2 (Datatypes.S n) 1 m (phi c) false (hm t) with
       | LDone m' coeff' true target' => sort_loop go to r2 n m' coeff' target'
       | r => r end).
    pose proof (hom_sort_pass r1 r2 Hr (Datatypes.S n) 1 m c false t) as K.
    destruct (sort_pass go so r1 (Datatypes.S n) 1 m c false t) as [m' c' [|] t'|t'| |];
      unfold loop_hom in K.
    + rewrite K. apply IH.
    + rewrite K. reflexivity.
    + rewrite K. reflexivity.
    + exact I.
    + exact I.
Qed.

Lemma hom_reduce_terms r1 r2 pre post c : rec_hom r1 r2 -> forall ts t t',
  reduce_terms so r1 pre post c ts t = Ok t' ->
  reduce_terms to r2 pre post (phi c) ts (hm t) = Ok (hm t').
Proof.
  intros Hr. induction ts as [|[g v] ts IH]; simpl; intros t t' E.
  - inversion E; auto.
  - destruct (s_make so v) as [x|] eqn:Ev; [|discriminate]. rewrite (sh_make H _ _ Ev), (sh_is_zero H).
    destruct (s_is_zero so x); simpl in *; auto.
    destruct (r1 (pre ++ g :: post) (s_mul so c x) t) as [t1| |] eqn:E1; try discriminate.
    simpl in E. apply Hr in E1. rewrite (sh_mul H) in E1. rewrite E1. simpl. auto.
Qed.

Lemma hom_reduce_scan n1 n2 r1 r2 : rec_hom n1 n2 -> rec_hom r1 r2 -> forall k it pw m c t t',
  reduce_scan go so n1 r1 k it pw m c t = Ok t' ->
  reduce_scan go to n2 r2 k it pw m (phi c) (hm t) = Ok (hm t').
Proof.
  intros Hn Hr. induction k as [|k IH]; simpl; intros it pw m c t t'.
  - intros E; inversion E; auto.
  - destruct (it + 1 =? length m).
    { intros E; inversion E. now rewrite hm_store. }
    destruct (nth_error m it) as [cur|]; [|discriminate].
    destruct (nth_error m (it + 1)) as [nx|]; [|discriminate].
    destruct (g_eq go nx cur); [|apply IH].
    destruct (if 2 <? pw + 1 then g_reduce go cur (pw + 1) else None) as [f|]; [|apply IH].
    destruct (lf_vanishing f); [intros E; inversion E; auto|].
    destruct (s_make so (const_term f)) as [v|] eqn:Ev; [|discriminate].
    rewrite (sh_make H _ _ Ev), (sh_is_zero H).
    destruct (s_is_zero so v); simpl.
    + apply hom_reduce_terms; auto.
    + destruct (r1 (firstn (it + 2 - (pw + 1)) m ++ skipn (it + 2) m) (s_mul so c v) t)
        as [t1| |] eqn:E1; try discriminate.
      simpl. apply Hr in E1. rewrite (sh_mul H) in E1. rewrite E1. simpl. apply hom_reduce_terms; auto.
Qed.

Lemma hom_normalize_aux : forall fuel,
  rec_hom (normalize_and_store go so fuel) (normalize_and_store go to fuel) /\
  rec_hom (reduce_powers_and_store go so fuel) (reduce_powers_and_store go to fuel).
Proof.
  induction fuel as [|fuel [IH1 IH2]].
  - split; intros m c t t' E; discriminate.
  - split; intros m c t t'.
    + rewrite !normalize_S. destruct (2 <=? length m); [|apply IH2].
      pose proof (hom_sort_loop _ _ IH1 (length m - 1) m c t) as K.
      destruct (sort_loop go so (normalize_and_store go so fuel) (length m - 1) m c t)
        as [m' c' sw t1|t1| |]; simpl in K; try discriminate; rewrite K.
      * rewrite (sh_is_zero H). destruct (s_is_zero so c'); [intros E; inversion E; auto|]. apply IH2.
      * intros E; inversion E; auto.
    + rewrite !reduce_S. destruct m as [|g m].
      * intros E; inversion E. now rewrite hm_store.
      * apply hom_reduce_scan; auto.
Qed.

Lemma hom_normalize : rec_hom (normalize go so) (normalize go to).
Proof. intros m. apply (proj1 (hom_normalize_aux _)). Qed.

Lemma hom_e_mono x m e : e_mono go so x m = Ok e -> e_mono go to (phi x) m = Ok (hm e).
Proof.
  unfold e_mono. rewrite (sh_is_zero H). destruct (s_is_zero so x).
  - intros E; inversion E; auto.
  - apply hom_normalize.
Qed.

Lemma hom_mul_row m1 c1 : forall b t t', mul_row go so m1 c1 b t = Ok t' ->
  mul_row go to m1 (phi c1) (hm b) (hm t) = Ok (hm t').
Proof.
  induction b as [|[m2 c2] b IH]; simpl; intros t t' E.
  - inversion E; auto.
  - destruct (normalize go so (m1 ++ m2) (s_mul so c1 c2) t) as [t1| |] eqn:E1; try discriminate.
    apply hom_normalize in E1. rewrite (sh_mul H) in E1. rewrite E1. simpl in *. auto.
Qed.
Lemma hom_mul_rows b : forall a t t', mul_rows go so a b t = Ok t' ->
  mul_rows go to (hm a) (hm b) (hm t) = Ok (hm t').
Proof.
  induction a as [|[m1 c1] a IH]; simpl; intros t t' E.
  - inversion E; auto.
  - destruct (mul_row go so m1 c1 b t) as [t1| |] eqn:E1; try discriminate.
    rewrite (hom_mul_row _ _ _ _ _ E1). simpl in *. auto.
Qed.
Lemma hom_mul a b e : e_mul go so a b = Ok e -> e_mul go to (hm a) (hm b) = Ok (hm e).
Proof.
  unfold e_mul. apply (hom_mul_rows b a []).
Qed.

Lemma hom_linfun_terms ts : forall e e', linfun_terms go so ts e = Ok e' ->
  linfun_terms go to ts (hm e) = Ok (hm e').
Proof.
  induction ts as [|[g v] ts IH]; cbn [linfun_terms]; intros e e' E.
  - inversion E; auto.
  - destruct (s_make so v) as [x|] eqn:Ev; [|discriminate]. rewrite (sh_make H _ _ Ev), (sh_is_zero H).
    destruct (s_is_zero so x); auto.
    destruct (e_mono go so x [g]) as [d| |] eqn:Ed; try discriminate.
    rewrite (hom_e_mono _ _ _ Ed). cbn [rbind] in *. rewrite hom_add. auto.
Qed.
Lemma hom_linfun f e : e_linfun go so f = Ok e -> e_linfun go to f = Ok (hm e).
Proof.
  unfold e_linfun. destruct (vn_is_zero (const_term f)); simpl.
  - apply (hom_linfun_terms (terms f) []).
  - destruct (s_make so (const_term f)) as [x|] eqn:Ev; [|discriminate]. rewrite (sh_make H _ _ Ev).
    simpl. apply (hom_linfun_terms (terms f) [([], x)]).
Qed.
Lemma hom_conj_mono m : forall a e, conj_mono go so m a = Ok e -> conj_mono go to m (hm a) = Ok (hm e).
Proof.
  induction m as [|g m IH]; cbn [conj_mono]; intros a e E.
  - inversion E; auto.
  - destruct (e_linfun go so (g_conj go g)) as [ef| |] eqn:Ef; try discriminate.
    rewrite (hom_linfun _ _ Ef). cbn [rbind] in *.
    destruct (e_mul go so a ef) as [a'| |] eqn:Ea; try discriminate.
    rewrite (hom_mul _ _ _ Ea). cbn [rbind] in *. auto.
Qed.
Lemma hom_conj_loop e : forall mc out r, conj_loop go so e mc out = Ok r ->
  conj_loop go to (hm e) (hm mc) (hm out) = Ok (hm r).
Proof.
  induction e as [|[m x] e IH]; intros mc out r.
  - simpl. intros E; inversion E; auto.
  - change (hm ((m, x) :: e)) with ((m, phi x) :: hm e). cbn [conj_loop].
    rewrite <- (sh_conj H), (sh_is_zero H), hom_const.
    destruct (s_is_zero so (s_conj so x)); cbn [rbind].
    + rewrite hom_add. apply IH.
    + destruct (conj_mono go so (rev m) (e_const so (s_conj so x))) as [ct| |] eqn:Ec; try discriminate.
      rewrite (hom_conj_mono _ _ _ Ec). cbn [rbind]. rewrite hom_add. apply IH.
Qed.
Lemma hom_conj e r : e_conj go so e = Ok r -> e_conj go to (hm e) = Ok (hm r).
Proof. apply (hom_conj_loop e [] [] r). Qed.

End Hom.

(** ** The canonical map from the integers *)
Section FromZ.
Context {S : Type} (so : scalar_ops S) (D : scalar_domain so).
Let L := sd_laws _ D.
Notation one := (s_one so).

Lemma nmul_add n m x : nmul so (n + m) x = s_add so (nmul so n x) (nmul so m x).
Proof.
  induction n as [|n IH]; simpl.
  - now rewrite (sl_add_0 _ L).
  - now rewrite IH, (sl_add_assoc _ L).
Qed.
Lemma nmul_mul n m : nmul so (n * m) one = s_mul so (nmul so n one) (nmul so m one).
Proof.
  induction n as [|n IH]; simpl.
  - now rewrite (s_mul_0_l so L).
  - now rewrite nmul_add, IH, (sl_dist_r _ L), (sl_mul_1_l _ L).
Qed.
Lemma zmul_of_nat n x : zmul so (Z.of_nat n) x = nmul so n x.
Proof. destruct n; simpl; auto. now rewrite SuccNat2Pos.id_succ. Qed.
Lemma zmul_opp z x : zmul so (- z) x = s_neg so (zmul so z x).
Proof.
  destruct z; simpl; auto.
  - now rewrite (s_neg_zero so L).
  - now rewrite (s_neg_neg so L).
Qed.
Lemma zmul_sub_nat n m x : zmul so (Z.of_nat n - Z.of_nat m) x =
  s_add so (nmul so n x) (s_neg so (nmul so m x)).
Proof.
  destruct (le_lt_dec m n) as [h|h].
  - replace (Z.of_nat n - Z.of_nat m)%Z with (Z.of_nat (n - m)) by lia.
    rewrite zmul_of_nat. replace n with ((n - m) + m) at 2 by lia.
    rewrite nmul_add, <- (sl_add_assoc _ L), (sl_neg _ L). now rewrite (s_add_0_r so L).
  - replace (Z.of_nat n - Z.of_nat m)%Z with (- Z.of_nat (m - n))%Z by lia.
    rewrite zmul_opp, zmul_of_nat. replace m with (n + (m - n)) at 2 by lia.
    rewrite nmul_add, (s_neg_add so L), (sl_add_assoc _ L), (sl_neg _ L).
    now rewrite (sl_add_0 _ L).
Qed.
Lemma z_as_sub z : exists n m, z = (Z.of_nat n - Z.of_nat m)%Z.
Proof. exists (Z.to_nat z), (Z.to_nat (- z)). lia. Qed.

Lemma zmul_add x y : zmul so (x + y) one = s_add so (zmul so x one) (zmul so y one).
Proof.
  destruct (z_as_sub x) as [a [b ->]], (z_as_sub y) as [c [d ->]].
  replace (Z.of_nat a - Z.of_nat b + (Z.of_nat c - Z.of_nat d))%Z
    with (Z.of_nat (a + c) - Z.of_nat (b + d))%Z by lia.
  rewrite !zmul_sub_nat, !nmul_add, (s_neg_add so L).
  rewrite <- !(sl_add_assoc _ L). f_equal.
  rewrite !(sl_add_assoc _ L). f_equal. apply (sl_add_comm _ L).
Qed.
Lemma zmul_mul x y : zmul so (x * y) one = s_mul so (zmul so x one) (zmul so y one).
Proof.
  destruct x as [|p|p], y as [|q|q]; simpl;
    rewrite ?(s_mul_0_l so L), ?(s_mul_0_r so L), ?Pos2Nat.inj_mul, ?nmul_mul,
      ?(s_mul_neg_l so L), ?(s_mul_neg_r so L), ?(s_neg_neg so L); auto.
Qed.
Lemma zmul_sub x y : zmul so (x - y) one = s_sub so (zmul so x one) (zmul so y one).
Proof. unfold Z.sub. now rewrite zmul_add, zmul_opp, (sl_sub _ L). Qed.

Lemma zmul_conj (CL : conj_laws so) z : s_conj so (zmul so z one) = zmul so z one.
Proof.
  assert (Z0 : s_conj so (s_zero so) = s_zero so).
  { pose proof (cl_add _ CL (s_zero so) (s_zero so)) as E.
    rewrite (sl_add_0 _ L) in E. symmetry.
    apply (s_add_cancel so L (s_conj so (s_zero so))). rewrite <- E. apply (s_add_0_r so L). }
  assert (O1 : s_conj so one = one).
  { rewrite <- (sl_mul_1_l _ L (s_conj so one)). rewrite <- (cl_invol _ CL one) at 1.
    rewrite <- (cl_mul _ CL). rewrite (sl_mul_1_l _ L). apply (cl_invol _ CL). }
  assert (N : forall n, s_conj so (nmul so n one) = nmul so n one).
  { induction n; simpl; auto. now rewrite (cl_add _ CL), O1, IHn. }
  destruct z; simpl; auto.
  apply (s_neg_unique so L). rewrite <- (N (Pos.to_nat p)) at 1.
  now rewrite <- (cl_add _ CL), (sl_neg _ L).
Qed.

Lemma int_hom (CL : conj_laws so) : scalar_hom int_scalar_ops so (fun z => zmul so z one).
Proof.
  constructor; simpl; intros; auto.
  - apply zmul_add.
  - apply zmul_sub.
  - apply zmul_mul.
  - apply zmul_opp.
  - symmetry. now apply zmul_conj.
  - change (s_is_zero so (zmul so x one) = Z.eqb 0 x). destruct (Z.eqb_spec 0 x) as [<-|n].
    + apply (s_is_zero_zero so L).
    + apply (s_is_zero_false so L). eapply (sd_const _ D (VInt x)).
      * apply (sl_make_int _ L).
      * simpl. apply Z.eqb_neq. auto.
  - destruct v; inversion H; subst. apply (sl_make_int _ L).
Qed.
End FromZ.
