-Q theories Verif
theories/Mem.v
theories/Wp.v
theories/List.v
theories/ListProof.v
theories/Bits.v
theories/BitsProof.v
theories/Hash.v
theories/HashSpec.v
theories/HashProof.v
theories/HashVectors.v
theories/HashMix.v
theories/Prop_Hash.v
theories/Client.v
theories/ClientProof.v
theories/Chain.v
theories/ChainProof.v
theories/SortProof.v
theories/ListSpec.v
theories/ListHist.v
theories/SortFast.v
theories/Examples.v
theories/ExamplesCall.v
theories/Prop_List.v
theories/Bucket.v
theories/HashTbl.v
theories/HashDyn.v
theories/HashLin.v
theories/TableSpec.v
theories/BucketProof.v
theories/TableHist.v
theories/BucketOps.v
theories/HashTblProof.v
theories/HashDynProof.v
theories/HashLinBase.v
theories/HashLinProof.v
theories/TableProps.v
theories/RunAll.v
theories/HashLinWork.v
theories/HashLinAmort.v
theories/HashLinBurst.v
theories/ExamplesTable.v
theories/HashDynAmort.v
theories/TableSwap.v
theories/Prop_Table.v
theories/Array.v
theories/ArraySpec.v
theories/ArrayHist.v
theories/ArraySeg.v
theories/ArrayProof.v
theories/ArrayOfProof.v
theories/ArrayBlkProof.v
theories/ArrayProps.v
theories/ExamplesArray.v
theories/Prop_Array.v
theories/ArraySwap.v
theories/Alloc.v
theories/AllocSpec.v
theories/AllocProof.v
theories/AllocHist.v
theories/ExamplesAlloc.v
theories/Prop_Alloc.v
theories/ClientSize.v
theories/Tree.v
theories/TreeSpec.v
theories/TreeWork.v
theories/TreeBal.v
theories/TreeProof.v
theories/TreeHist.v
theories/TreeProps.v
theories/ExamplesTree.v
theories/Prop_Tree.v
theories/Trie.v
theories/TrieSpec.v
theories/TrieProof.v
theories/TrieCount.v
theories/TrieKeys.v
theories/TrieHist.v
theories/TrieProps.v
theories/ExamplesTrie.v
theories/Prop_Trie.v
theories/InpTrie.v
theories/InpSpec.v
theories/InpProof.v
theories/InpHist.v
theories/InpProps.v
theories/ExamplesInp.v
theories/Prop_Inp.v
theories/World.v
theories/WorldProof.v
theories/WorldList.v
theories/WorldTable.v
theories/WorldTree.v
theories/WorldTrie.v
theories/WorldArray.v
theories/WorldPool.v
theories/WorldHist.v
theories/ExamplesWorld.v
theories/Prop_World.v
theories/KeyedSwap.v
theories/ExamplesKeyed.v
theories/Prop_Keyed.v
theories/ReadOnly.v
theories/Prop_Read.v
theories/TableChain.v
theories/ExamplesChain.v
theories/Prop_Chain.v
theories/BitsMsvc.v
theories/Prop_Bits.v
theories/TreeAnySpec.v
theories/TreeAny.v
theories/ExamplesTreeAny.v
theories/Prop_TreeAny.v
theories/Pointers.v
theories/Prop_Pointers.v
theories/RequestSpec.v
theories/Requests.v
theories/ExamplesRequests.v
theories/Prop_Requests.v
theories/RoomSpec.v
theories/Room.v
theories/RoomTrie.v
theories/ExamplesRoom.v
theories/ExamplesRoomTrie.v
theories/Prop_Room.v
theories/AccessSpec.v
theories/Accesses.v
theories/AccessTable.v
theories/AccessTrie.v
theories/AccessTree.v
theories/AccessHist.v
theories/ExamplesAccess.v
theories/Prop_Access.v
theories/CostSpec.v
theories/Cost.v
theories/CostSort.v
theories/CostCount.v
theories/CostTree.v
theories/CostTableSpec.v
theories/HashDynWork.v
theories/CostTable.v
theories/CostLinSpec.v
theories/HashLinRelink.v
theories/CostTables.v
theories/CostLinAmort.v
theories/CostArraySpec.v
theories/CostArray.v
theories/ExamplesCost.v
theories/Prop_Cost.v
