.nra.cache
.lia.cache
.nia.cache
.lia.cache
