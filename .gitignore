.lia.cache
rocq/.nia.cache
rocq/.lia.cache
**/.nia.cache
**/.lia.cache
