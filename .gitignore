.nia.cache
.lia.cache
.nra.cache
.csdp.cache
