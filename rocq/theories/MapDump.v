(** Model of DumpEntry (map.go:1104-1125, maphead.go:92-108) on the default map. Definitions only. *)
From Verif Require Import Base Util Bucket MapModel.
Local Open Scope Z_scope.

(** One line of DumpEntry. [dl_key = None]: the line of a sentinel, which fromMapHead
    (maphead.go:102-108) reads as an entryHMap and whose key is nil; otherwise the item is read as a
    SampleItem, [Some None] when it is not one and its key is misread (as in [view_key]).
    The list pointers printed (cur, prev, next) are left out. *)
Record dline := mkL { dl_key : option (option gkey); dl_hash : Z; dl_rev : Z; dl_conf : Z }.
(** map.go:1110-1117 *)
Definition dump_line (e : entry) : dline :=
  mkL (match e_dummy e with Some _ => None | None => Some (view_key KSample e) end)
      (reverse64 (e_rev e)) (e_rev e) (e_conf e).
(** map.go:1104-1125: from the head to the tail of the item list; there is no test of the
    deleted mark. *)
Definition dump_entry (s : mstate) : list dline := map dump_line (m_items s).
(** map.go:1060-1074 DumpBucket, the reverse and level columns *)
Definition dump_cols (s : mstate) : list (Z * Z) := map (fun n => (brev (m_trie s) n, lvl (m_trie s) n)) (m_bl s).
(** map.go:1076-1102 DumpBucketPerLevel: the reverse column of what it prints under "bucket level=l". It follows the level list
    from its front. isEmptyBylevel (map.go:1268-1285) only leaves out the heading of a level with an empty list. *)
Definition dump_level (s : mstate) (l : Z) : list Z := map (brev (m_trie s)) (lv_get (m_lv s) l).
