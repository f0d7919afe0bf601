(** * C15 (continued): the factory function n(i) *)
From Coq Require Import ZArith Bool Lia List Setoid Morphisms Ncring Ncring_tac.
From Verif Require Import ExprModel ExprSpec ExprOrder ExprMap ExprEval ExprStd ExprMain
  ExprThrow FockSpec PropExpr PropUnique PropFactories.
Import ListNotations.
Open Scope nat_scope.
Open Scope list_scope.

(** n(i) is the number operator c^+_i c_i: a projector that counts *)
Theorem C15_number : forall I S (io : index_ops I) (so : scalar_ops S), index_order io -> scalar_domain so ->
  forall i, let O := std_gen_ops io in let X := gen_expr so in
  exists n, factory_n io so i = Ok n /\
    e_mul O so (X (GFermion true i)) (X (GFermion false i)) = Ok n /\ n <> [] /\
    e_mul O so n n = Ok n /\
    commutator_is O so n (X (GFermion true i)) (X (GFermion true i)) /\
    commutator_is O so (X (GFermion false i)) n (X (GFermion false i)).
Proof.
  intros I S io so Hio D i O X. subst O. set (O := std_gen_ops io). pose proof (sd_laws _ D) as L.
  set (cd := GFermion true i : gen I). set (c := GFermion false i : gen I). set (B := [cd; c]).
  assert (HB : Forall simple B) by (repeat constructor).
  assert (HH : half_if_spins so B) by (intros m k j [h|[h|[]]]; discriminate h).
  assert (P0 : forall e, built io so B e -> Pe not_half e).
  { intros e Be m x h. pose proof (built_on io Hio so D B HB e Be m x h) as K.
    eapply Forall_impl; [|exact K]. intros g [hg hs]. destruct g; cbn; auto.
    cbn in hg. destruct hg as [hg|[hg|[]]]; discriminate hg. }
  assert (TOT : forall a b, built io so B a -> built io so B b -> exists e, e_mul O so a b = Ok e /\ built io so B e).
  { intros a b Ba Bb. destruct (e_mul_total O so not_half (std_make_int io so L) a b (P0 a Ba) (P0 b Bb)) as [e E].
    exists e. split; [exact E|]. exact (b_mul io so B a b e Ba Bb E). }
  assert (BX : forall g, In g B -> built io so B (X g)).
  { intros g h. apply (b_mono io so B (s_one so) [g]); [intros x [<-|[]]; exact h|exact (C15_factories io so D g)]. }
  assert (Bcd : built io so B (X cd)) by (apply BX; left; reflexivity).
  assert (Bc : built io so B (X c)) by (apply BX; right; left; reflexivity).
  destruct (e_mono_total O so not_half (std_make_int io so L) (s_one so) [cd; c]) as [n En]; [repeat constructor|].
  assert (Bn : built io so B n) by (apply (b_mono io so B (s_one so) [cd; c]); [intros x h; exact h|exact En]).
  exists n. split; [exact En|].
  assert (U : forall a b, built io so B a -> built io so B b -> same_operator so (map site_of B) a b -> a = b)
    by (intros a b Ba Bb; exact (built_unique io Hio so D B HB a b HH Ba Bb)).
  (* values *)
  assert (V : forall R (ro : ring_ops R) inj rho, is_ring ro -> scalar_image so ro inj rho ->
    relations_on (on_sites (map site_of B)) so ro inj rho ->
    req ro (eval_expr ro inj rho (X cd)) (rho cd) /\ req ro (eval_expr ro inj rho (X c)) (rho c) /\
    req ro (eval_expr ro inj rho n) (rmul ro (rho cd) (rho c)) /\
    (forall a b e, built io so B a -> built io so B b -> e_mul O so a b = Ok e ->
       req ro (eval_expr ro inj rho e) (rmul ro (eval_expr ro inj rho a) (eval_expr ro inj rho b))) /\
    req ro (rmul ro (rho cd) (rho cd)) (r0 ro) /\ req ro (rmul ro (rho c) (rho c)) (r0 ro) /\
    req ro (radd ro (rmul ro (rho c) (rho cd)) (rmul ro (rho cd) (rho c))) (r1 ro)).
  { intros R ro inj rho Hr SI RL.
    pose proof (ri_equiv _ Hr) as EQ. pose proof (ri_mul_ext _ Hr) as MX. pose proof (ri_add_ext _ Hr) as AX.
    assert (G : forall g, req ro (eval_expr ro inj rho (X g)) (rho g)).
    { intros g. cbn. rewrite (si_1 _ _ _ _ SI), (ri_mul_1_l _ Hr), (ri_mul_1_r _ Hr), (ri_add_comm _ Hr), (ri_add_0 _ Hr). reflexivity. }
    assert (Kd : on_sites (map site_of B) cd) by (split; [left; reflexivity|exact Logic.I]).
    assert (Kc : on_sites (map site_of B) c) by (split; [left; reflexivity|exact Logic.I]).
    split; [apply G|]. split; [apply G|]. split.
    - pose proof (e_mono_sound O (std_order io Hio) so L ro Hr inj rho SI _ (sound_on io Hio so D B HB ro inj rho Hr SI RL) (s_one so) [cd; c] n) as K.
      assert (F : Forall (adm (on_sites (map site_of B)) B) [cd; c]).
      { constructor; [split; [exists true; left; reflexivity|exact Kd]|].
        constructor; [split; [exists true; left; reflexivity|exact Kc]|constructor]. }
      rewrite (K F En).
      cbn. rewrite (si_1 _ _ _ _ SI), (ri_mul_1_l _ Hr), (ri_mul_1_r _ Hr). reflexivity.
    - split; [intros a b e Ba Bb E; exact (mul_value io Hio so D B HB ro inj rho Hr SI RL a b e Ba Bb E)|].
      split; [apply (kr_c_sq _ _ _ _ _ RL); exact Kd|]. split; [apply (kr_c_sq _ _ _ _ _ RL); exact Kc|].
      apply (kr_c_cdag _ _ _ _ _ RL); assumption. }
  assert (Q : forall e1 e2, built io so B e1 -> built io so B e2 ->
    (forall R (ro : ring_ops R) inj rho, is_ring ro -> scalar_image so ro inj rho ->
       relations_on (on_sites (map site_of B)) so ro inj rho ->
       req ro (radd ro (eval_expr ro inj rho e1) (ropp ro (eval_expr ro inj rho e2))) (rho cd)) ->
    e_sub O so e1 e2 = X cd).
  { intros e1 e2 B1 B2 H. apply U; [apply b_sub; assumption|exact Bcd|]. intros R ro inj rho Hr SI RL.
    pose proof (ri_equiv _ Hr) as EQ. destruct (V R ro inj rho Hr SI RL) as [Ed _]. rewrite Ed, <- (H R ro inj rho Hr SI RL).
    exact (ev_sub_assign O (std_order io Hio) so L ro Hr inj rho SI e1 e2). }
  assert (Q' : forall e1 e2, built io so B e1 -> built io so B e2 ->
    (forall R (ro : ring_ops R) inj rho, is_ring ro -> scalar_image so ro inj rho ->
       relations_on (on_sites (map site_of B)) so ro inj rho ->
       req ro (radd ro (eval_expr ro inj rho e1) (ropp ro (eval_expr ro inj rho e2))) (rho c)) ->
    e_sub O so e1 e2 = X c).
  { intros e1 e2 B1 B2 H. apply U; [apply b_sub; assumption|exact Bc|]. intros R ro inj rho Hr SI RL.
    pose proof (ri_equiv _ Hr) as EQ. destruct (V R ro inj rho Hr SI RL) as [_ [Ec _]]. rewrite Ec, <- (H R ro inj rho Hr SI RL).
    exact (ev_sub_assign O (std_order io Hio) so L ro Hr inj rho SI e1 e2). }
  (* identities *)
  assert (RI : forall R (ro : ring_ops R) (x y : R), is_ring ro -> req ro (rmul ro x x) (r0 ro) -> req ro (rmul ro y y) (r0 ro) ->
     req ro (radd ro (rmul ro y x) (rmul ro x y)) (r1 ro) ->
     req ro (rmul ro (rmul ro x y) (rmul ro x y)) (rmul ro x y) /\
     req ro (radd ro (rmul ro (rmul ro x y) x) (ropp ro (rmul ro x (rmul ro x y)))) x /\
     req ro (radd ro (rmul ro y (rmul ro x y)) (ropp ro (rmul ro (rmul ro x y) y))) y).
  { intros R ro x y Hr Hx Hy Hxy.
    pose (opsI := nc_ops ro). pose (ringI := nc_ring ro Hr : @Ring _ _ _ _ _ _ _ _ opsI).
    pose proof (ri_equiv _ Hr) as EQ. pose proof (ri_mul_ext _ Hr) as MX. pose proof (ri_add_ext _ Hr) as AX.
    pose proof (ri_opp_ext _ Hr) as OX.
    assert (Eyx : req ro (rmul ro y x) (radd ro (r1 ro) (ropp ro (rmul ro x y)))).
    { rewrite <- Hxy. clear - ringI. non_commutative_ring. }
    split; [|split].
    - transitivity (rmul ro (rmul ro x (rmul ro y x)) y); [clear - ringI; non_commutative_ring|]. rewrite Eyx.
      transitivity (radd ro (rmul ro x y) (ropp ro (rmul ro (rmul ro x x) (rmul ro y y)))); [clear - ringI; non_commutative_ring|].
      rewrite Hx. clear - ringI; non_commutative_ring.
    - transitivity (radd ro (rmul ro x (rmul ro y x)) (ropp ro (rmul ro (rmul ro x x) y))); [clear - ringI; non_commutative_ring|].
      rewrite Eyx. transitivity (radd ro x (ropp ro (radd ro (rmul ro (rmul ro x x) y) (rmul ro (rmul ro x x) y)))); [clear - ringI; non_commutative_ring|].
      rewrite Hx. clear - ringI; non_commutative_ring.
    - transitivity (radd ro (rmul ro (rmul ro y x) y) (ropp ro (rmul ro x (rmul ro y y)))); [clear - ringI; non_commutative_ring|].
      rewrite Eyx. transitivity (radd ro y (ropp ro (radd ro (rmul ro x (rmul ro y y)) (rmul ro x (rmul ro y y))))); [clear - ringI; non_commutative_ring|].
      rewrite Hy. clear - ringI; non_commutative_ring. }
  destruct (TOT (X cd) (X c) Bcd Bc) as [cc [Ecc Bcc]].
  destruct (TOT n n Bn Bn) as [n2 [E2 B2]].
  destruct (TOT n (X cd) Bn Bcd) as [p1 [Ep1 Bp1]]. destruct (TOT (X cd) n Bcd Bn) as [p2 [Ep2 Bp2]].
  destruct (TOT (X c) n Bc Bn) as [q1 [Eq1 Bq1]]. destruct (TOT n (X c) Bn Bc) as [q2 [Eq2 Bq2]].
  assert (C1 : e_sub O so p1 p2 = X cd).
  { apply Q; [exact Bp1|exact Bp2|]. intros R ro inj rho Hr SI RL.
    pose proof (ri_equiv _ Hr) as EQ. pose proof (ri_mul_ext _ Hr) as MX. pose proof (ri_add_ext _ Hr) as AX. pose proof (ri_opp_ext _ Hr) as OX.
    destruct (V R ro inj rho Hr SI RL) as [Ed [Ec [Enn [M [Hx [Hy Hxy]]]]]].
    rewrite (M _ _ _ Bn Bcd Ep1), (M _ _ _ Bcd Bn Ep2), Enn, Ed. apply (RI R ro _ _ Hr Hx Hy Hxy). }
  assert (C2 : e_sub O so q1 q2 = X c).
  { apply Q'; [exact Bq1|exact Bq2|]. intros R ro inj rho Hr SI RL.
    pose proof (ri_equiv _ Hr) as EQ. pose proof (ri_mul_ext _ Hr) as MX. pose proof (ri_add_ext _ Hr) as AX. pose proof (ri_opp_ext _ Hr) as OX.
    destruct (V R ro inj rho Hr SI RL) as [Ed [Ec [Enn [M [Hx [Hy Hxy]]]]]].
    rewrite (M _ _ _ Bc Bn Eq1), (M _ _ _ Bn Bc Eq2), Enn, Ec. apply (RI R ro _ _ Hr Hx Hy Hxy). }
  split; [|split; [|split; [|split]]].
  - rewrite Ecc. f_equal. apply U; [exact Bcc|exact Bn|]. intros R ro inj rho Hr SI RL.
    pose proof (ri_equiv _ Hr) as EQ. pose proof (ri_mul_ext _ Hr) as MX.
    destruct (V R ro inj rho Hr SI RL) as [Ed [Ec [Enn [M _]]]]. rewrite (M _ _ _ Bcd Bc Ecc), Enn, Ed, Ec. reflexivity.
  - intros ->. cbn in Ep1, Ep2. injection Ep1 as <-. injection Ep2 as <-. discriminate C1.
  - rewrite E2. f_equal. apply U; [exact B2|exact Bn|]. intros R ro inj rho Hr SI RL.
    pose proof (ri_equiv _ Hr) as EQ. pose proof (ri_mul_ext _ Hr) as MX.
    destruct (V R ro inj rho Hr SI RL) as [Ed [Ec [Enn [M [Hx [Hy Hxy]]]]]]. rewrite (M _ _ _ Bn Bn E2), Enn. apply (RI R ro _ _ Hr Hx Hy Hxy).
  - exists p1, p2. auto.
  - exists q1, q2. auto.
Qed.
Print Assumptions C15_number.
