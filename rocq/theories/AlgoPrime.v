(** projects/sm-algorithm/src/prime *)
From Verif Require Import Base AlgoError NumTypes.
From Coq Require Import FMapPositive.
Local Open Scope Z_scope.
Local Open Scope outcome_scope.

(** BTreeMap<u64, u64> of prime_sum.rs:19, as a finite map on non-negative keys. *)
Definition smap := PositiveMap.t Z.
(** keys of the map of prime_sum.rs:19 *)
Definition skey (k : Z) : positive := Z.to_pos (k + 1).
(** [BTreeMap::get] on the map of prime_sum.rs:19 *)
Definition s_get (s : smap) (k : Z) : option Z := PositiveMap.find (skey k) s.
(** [BTreeMap::insert] on the map of prime_sum.rs:19 *)
Definition s_set (s : smap) (k v : Z) : smap := PositiveMap.add (skey k) v s.
(** [s[&k]] / [get_mut(&k).unwrap()]; prime_sum.rs:22-26 *)
Definition s_index (s : smap) (k : Z) : outcome Z :=
  match s_get s k with Some v => Ret v | None => Panic PIndex end.

(** prime_sum.rs:17-18 the vector [v]: n/1, ..., n/r then last-1, ..., 0. *)
Definition ps_quotients (n r : Z) : list Z := map (fun i => n / i) (zseq 1 (Z.to_nat r)).
(** prime_sum.rs:17-18 *)
Definition ps_keys (n r : Z) : outcome (list Z) :=
  let v := ps_quotients n r in
  match rev v with
  | [] => Panic PUnwrap                   (* v.last().unwrap() *)
  | l :: _ => Ret (v ++ rev (zseq 0 (Z.to_nat l)))
  end.

(** prime_sum.rs:19 the initial value at key i: ((i+1)*i/2).wrapping_sub(1) *)
Definition ps_init_val (md : ovf_mode) (i : Z) : outcome Z :=
  i1 <- u64_add md i 1;
  m <- u64_mul md i1 i;
  Ret (u64_wrapping_sub (m / 2) 1).

(** prime_sum.rs:19 collecting into the map, in iteration order. *)
Fixpoint ps_init (md : ovf_mode) (v : list Z) (s : smap) : outcome smap :=
  match v with
  | [] => Ret s
  | i :: v' => x <- ps_init_val md i; ps_init md v' (s_set s i x)
  end.

(** prime_sum.rs:24-27 the inner loop for one prime p. *)
Fixpoint ps_inner (md : ovf_mode) (p sp p2 : Z) (v : list Z) (s : smap) : outcome smap :=
  match v with
  | [] => Ret s
  | ve :: v' =>
      if ve <? p2 then Ret s             (* break *)
      else
        x <- s_index s (ve / p);
        d <- u64_sub md x sp;
        m <- u64_mul md p d;
        y <- s_index s ve;
        z <- u64_sub md y m;
        ps_inner md p sp p2 v' (s_set s ve z)
  end.

(** prime_sum.rs:21-28 the body of the outer loop *)
Definition ps_step (md : ovf_mode) (v : list Z) (p : Z) (s : smap) : outcome smap :=
  a <- s_index s p;
  b <- s_index s (p - 1);
  if b <? a then
    sp <- s_index s (p - 1);
    p2 <- u64_mul md p p;
    ps_inner md p sp p2 v s
  else Ret s.

(** prime_sum.rs:20-29 for p in 2..=r *)
Fixpoint ps_outer (md : ovf_mode) (v : list Z) (ps : list Z) (s : smap) : outcome smap :=
  match ps with
  | [] => Ret s
  | p :: ps' => s' <- ps_step md v p s; ps_outer md v ps' s'
  end.

(** prime_sum.rs:16 the assertion (short-circuiting &&) *)
Definition ps_assert (md : ovf_mode) (n r : Z) : outcome unit :=
  rr <- u64_mul md r r;
  if rr <=? n then
    r1 <- u64_add md r 1;
    q <- u64_mul md r1 r1;
    if n <? q then Ret tt else Panic PAssert
  else Panic PAssert.

(** prime_sum.rs:14-31 [prime_sum_u64]; num's integer [sqrt] is [Z.sqrt]. *)
Definition prime_sum_u64 (md : ovf_mode) (n : Z) : outcome Z :=
  let r := Z.sqrt n in
  _ <- ps_assert md n r;
  v <- ps_keys n r;
  s <- ps_init md v (PositiveMap.empty Z);
  s <- ps_outer md v (zseq 2 (Z.to_nat (r - 1))) s;
  s_index s n.

(** Lookup in a constant table (BTreeMap::get). prime_sum.rs:72-75, prime_count.rs:48-51. *)
Fixpoint table_get (n : Z) (t : list (Z * Z)) : option Z :=
  match t with
  | [] => None
  | (k, v) :: t' => if k =? n then Some v else table_get n t'
  end.

(** prime/prime_sum.rs:42-68 [prime_sum_table] *)
Definition prime_sum_table : list (Z * Z) :=
  [ (1, 0);
    (10, 17);
    (100, 1060);
    (1000, 76127);
    (10000, 5736396);
    (100000, 454396537);
    (1000000, 37550402023);
    (10000000, 3203324994356);
    (100000000, 279209790387276);
    (1000000000, 24739512092254535);
    (10000000000, 2220822432581729238);
    (100000000000, 201467077743744681014);
    (1000000000000, 18435588552550705911377);
    (10000000000000, 1699246443377779418889494);
    (100000000000000, 157589260710736940541561021);
    (1000000000000000, 14692398516908006398225702366);
    (10000000000000000, 1376110854313351899159632866552);
    (100000000000000000, 129408626276669278966252031311350);
    (1000000000000000000, 12212914292949226570880576733896687);
    (10000000000000000000, 1156251260549368082781614413945980126);
    (100000000000000000000, 109778913483063648128485839045703833541);
    (1000000000000000000000, 10449550362130704786220283253063405651965);
    (10000000000000000000000, 996973504763259668279213971353794878368213);
    (100000000000000000000000, 95320530117168404458544684912403185555509650);
    (1000000000000000000000000, 9131187511156941634384410084928380134453142199);
    (10000000000000000000000000, 876268031750623105684911815303505535704119354853) ].

(** prime/prime_count.rs:17-44 [prime_count_table] *)
Definition prime_count_table : list (Z * Z) :=
  [ (1, 0);
    (10, 4);
    (100, 25);
    (1000, 168);
    (10000, 1229);
    (100000, 9592);
    (1000000, 78498);
    (10000000, 664579);
    (100000000, 5761455);
    (1000000000, 50847534);
    (10000000000, 455052511);
    (100000000000, 4118054813);
    (1000000000000, 37607912018);
    (10000000000000, 346065536839);
    (100000000000000, 3204941750802);
    (1000000000000000, 29844570422669);
    (10000000000000000, 279238341033925);
    (100000000000000000, 2623557157654233);
    (1000000000000000000, 24739954287740860);
    (10000000000000000000, 234057667276344607);
    (100000000000000000000, 2220819602560918840);
    (1000000000000000000000, 21127269486018731928);
    (10000000000000000000000, 201467286689315906290);
    (100000000000000000000000, 1925320391606803968923);
    (1000000000000000000000000, 18435599767349200867866);
    (10000000000000000000000000, 176846309399143769411680);
    (100000000000000000000000000, 1699246750872437141327603);
    (1000000000000000000000000000, 16352460426841680446427399) ].

(** prime_sum.rs:72-83 [prime_sum_i] *)
Definition prime_sum_i (md : ovf_mode) (n : Z) : outcome (alg_result Z) :=
  match table_get n prime_sum_table with
  | Some s => Ret (Ok s)
  | None =>
      if n <? 0 then Ret (Err (Undefined (lit "wrong def")))
      else match to_u64 n with
           | None => Ret (Err Unimplemented)
           | Some s => x <- prime_sum_u64 md s; Ret (Ok x)
           end
  end.

(** prime_count.rs:48-59 [prime_count_i] *)
Definition prime_count_i (n : Z) : alg_result Z :=
  match table_get n prime_count_table with
  | Some s => Ok s
  | None =>
      if n <? 0 then Err (Undefined (lit "wrong def"))
      else match to_u64 n with
           | None => Err Unimplemented
           | Some _ => Err Unimplemented
           end
  end.
